From Coq Require Import Reals ZArith List Bool Arith Lia Lra FinFun.
From Verif Require Import Vec GeomModel GeomProofs RhoModel RhoSpec RhoProofs LrModel LrSpec.
Import ListNotations.
Open Scope R_scope.

(** ** the pairs *)
Lemma in_all_pairs norb i j : In (i, j) (all_pairs norb) <-> (i < j < norb)%nat.
Proof.
  unfold all_pairs. rewrite in_flat_map. split.
  - intros [x [hx h]]. apply in_map_iff in h. destruct h as [y [hy h]]. inversion hy; subst. apply in_seq in h. apply in_seq in hx. lia.
  - intros h. exists i. split; [apply in_seq; lia|]. apply in_map_iff. exists j. split; [reflexivity|apply in_seq; lia].
Qed.
Lemma nodup_blocks {A B} (g : A -> list (A * B)) l : NoDup l -> (forall x, NoDup (g x)) -> (forall x y, In y (g x) -> fst y = x) -> NoDup (flat_map g l).
Proof.
  intros hl hg hx. induction hl as [|a l ha hl IH]; [constructor|]. cbn [flat_map].
  assert (K : forall l1 l2 : list (A * B), NoDup l1 -> NoDup l2 -> (forall x, In x l1 -> ~ In x l2) -> NoDup (l1 ++ l2)).
  { induction l1 as [|b l1 IH1]; intros l2 h1 h2 h3; [exact h2|]. inversion h1; subst. constructor.
    - rewrite in_app_iff. intros [h|h]; [contradiction|]. exact (h3 b (or_introl eq_refl) h).
    - apply IH1; [assumption|assumption|]. intros x h. apply h3. right. exact h. }
  apply K; [apply hg|exact IH|]. intros y hy hy'. apply in_flat_map in hy'. destruct hy' as [b [hb hb']].
  apply hx in hy. apply hx in hb'. rewrite hy in hb'. subst b. contradiction.
Qed.
Lemma nodup_all_pairs norb : NoDup (all_pairs norb).
Proof.
  unfold all_pairs. apply nodup_blocks; [apply seq_NoDup| |].
  - intros x. apply FinFun.Injective_map_NoDup; [|apply seq_NoDup]. intros a b h. inversion h. reflexivity.
  - intros x y h. apply in_map_iff in h. destruct h as [z [<- _]]. reflexivity.
Qed.
Lemma selected_iff e f cut i j : selected e f cut i j = true <-> e j - e i < cut /\ / 10 ^ 6 < (f i - f j) / 2.
Proof. unfold selected, energy, occup. rewrite andb_true_iff, !ltb_true. tauto. Qed.
Lemma select_ok e f cut l : forall ph, select e f cut l = Ok ph -> ph = filter (fun x => selected e f cut (fst x) (snd x)) l /\ proper e f ph.
Proof.
  induction l as [|[i j] l IH]; intros ph h.
  - cbn in h. inversion h. split; [reflexivity|]. intros ? ? [].
  - cbn [select] in h. cbn [filter fst snd]. destruct (selected e f cut i j) eqn:E.
    + destruct (ltb 0 (energy e i j) && ltb 0 (occup f i j)) eqn:E2; [|discriminate].
      destruct (select e f cut l) as [ph'|]; [|discriminate]. inversion h; subst. destruct (IH ph' eq_refl) as [h1 h2].
      split; [rewrite h1 at 1; reflexivity|]. apply andb_true_iff in E2. rewrite !ltb_true in E2. unfold energy, occup in E2.
      intros a b [hab|hab]; [inversion hab; subst; lra|apply h2; exact hab].
    + apply IH. exact h.
Qed.
Lemma select_assertion e f cut l : (forall i j, In (i, j) l -> selected e f cut i j = true -> e i < e j /\ f j < f i) -> exists ph, select e f cut l = Ok ph.
Proof.
  induction l as [|[i j] l IH]; intros h; [exists []; reflexivity|]. cbn [select].
  destruct IH as [ph hp]; [intros a b hab; apply h; right; exact hab|].
  destruct (selected e f cut i j) eqn:E; [|exists ph; exact hp].
  destruct (h i j (or_introl eq_refl) E) as [h1 h2].
  assert (E2 : ltb 0 (energy e i j) && ltb 0 (occup f i j) = true) by (rewrite andb_true_iff, !ltb_true; unfold energy, occup; lra).
  rewrite E2, hp. exists ((i, j) :: ph). reflexivity.
Qed.
Lemma select_fail e f cut l x : select e f cut l = Fail x -> x = LrAssertion.
Proof.
  induction l as [|[i j] l IH]; cbn [select]; [discriminate|].
  destruct (selected e f cut i j); [|exact IH]. destruct (_ && _); [|intros h; inversion h; reflexivity].
  destruct (select e f cut l); [discriminate|]. intros h. apply IH. inversion h. reflexivity.
Qed.

Lemma pairs_exact norb e f cut ph : particle_holes norb e f cut = Ok ph ->
  NoDup ph /\ forall i j, In (i, j) ph <-> (i < j < norb)%nat /\ 0 < e j - e i < cut /\ / 10 ^ 6 < (f i - f j) / 2.
Proof.
  intros h. destruct (select_ok _ _ _ _ _ h) as [h1 h2]. split.
  - rewrite h1. apply NoDup_filter, nodup_all_pairs.
  - intros i j. split.
    + intros hi. pose proof (h2 i j hi) as hp. rewrite h1 in hi. apply filter_In in hi. cbn [fst snd] in hi. rewrite selected_iff, in_all_pairs in hi. intuition lra.
    + intros [ha [hb hc]]. rewrite h1. apply filter_In. cbn [fst snd]. rewrite selected_iff, in_all_pairs. intuition lra.
Qed.
Lemma pairs_returned norb e f cut : ordered norb e f -> exists ph, particle_holes norb e f cut = Ok ph.
Proof.
  intros ho. apply select_assertion. intros i j hij hs. apply in_all_pairs in hij. apply selected_iff in hs.
  assert (0 < / 10 ^ 6) by (apply Rinv_0_lt_compat; lra).
  destruct (ho i j) as [h1 h2]; [lia|lia|]. split; [|lra].
  destruct (Rle_lt_or_eq_dec _ _ h1) as [h|h]; [exact h|]. rewrite (h2 h) in hs. lra.
Qed.
Lemma setup_result norb e f cut done ph : lr_setup norb e f cut done = Ok ph <->
  done = false /\ particle_holes norb e f cut = Ok ph /\ (0 < Z.of_nat (length ph) < 100000)%Z.
Proof.
  unfold lr_setup. destruct done; [split; [discriminate|intros [h _]; discriminate]|].
  destruct (particle_holes norb e f cut) as [p|x]; [|split; [discriminate|intros [_ [h _]]; discriminate]].
  destruct ((0 <? length p)%nat && (Z.of_nat (length p) <? 100000)%Z) eqn:E.
  - apply andb_true_iff in E. rewrite Nat.ltb_lt, Z.ltb_lt in E. split.
    + intros h. inversion h; subst. split; [reflexivity|]. split; [reflexivity|lia].
    + intros [_ [h _]]. exact h.
  - split; [discriminate|]. intros [_ [h h2]]. inversion h; subst. exfalso. apply andb_false_iff in E. rewrite Nat.ltb_ge, Z.ltb_ge in E. lia.
Qed.
Lemma setup_fail norb e f cut : ordered norb e f -> lr_setup norb e f cut false = Fail LrRuntime \/ exists ph, lr_setup norb e f cut false = Ok ph.
Proof.
  intros ho. unfold lr_setup. destruct (pairs_returned norb e f cut ho) as [ph ->].
  destruct ((0 <? length ph)%nat && (Z.of_nat (length ph) <? 100000)%Z); [right; exists ph; reflexivity|left; reflexivity].
Qed.
(** no excitation at all: RuntimeError exactly then for systems of a usual size *)
Lemma setup_empty norb e f cut : ordered norb e f -> (Z.of_nat norb < 447)%Z ->
  (lr_setup norb e f cut false = Fail LrRuntime <-> forall i j, (i < j < norb)%nat -> e j - e i < cut -> (f i - f j) / 2 <= / 10 ^ 6).
Proof.
  intros ho hn. destruct (pairs_returned norb e f cut ho) as [ph hp]. pose proof (pairs_exact _ _ _ _ _ hp) as [hd hx].
  assert (hl : (Z.of_nat (length ph) < 100000)%Z).
  { assert (H1 : (length ph <= length (all_pairs norb))%nat).
    { apply NoDup_incl_length; [exact hd|]. intros [i j] h. apply in_all_pairs. apply hx in h. apply h. }
    assert (H2 : forall n s, (s + n <= norb)%nat -> (2 * length (flat_map (fun i => map (fun j => (i, j)) (seq (i + 1) (norb - (i + 1)))) (seq s n)) + n * (2 * s + n + 1) = 2 * n * norb)%nat).
    { induction n as [|n IH]; intros s0 hs; [cbn; lia|]. specialize (IH (S s0)).
      cbn [seq flat_map]. rewrite app_length, map_length, seq_length. assert (hs' : (S s0 + n <= norb)%nat) by lia. specialize (IH hs').
      revert IH. generalize (length (flat_map (fun i => map (fun j => (i, j)) (seq (i + 1) (norb - (i + 1)))) (seq (S s0) n))). intros L IH.
      assert (hq : (norb - (s0 + 1) + s0 + 1 = norb)%nat) by lia. revert hq. generalize (norb - (s0 + 1))%nat. intros q hq. subst norb. nia. }
    specialize (H2 norb 0%nat ltac:(lia)). unfold all_pairs in H1. nia. }
  unfold lr_setup. rewrite hp. destruct ph as [|[i j] ph].
  - cbn [length Nat.ltb Nat.leb andb]. split; [|reflexivity]. intros _ i j hij hc. destruct (Rle_lt_dec ((f i - f j) / 2) (/ 10 ^ 6)) as [h|h]; [exact h|].
    exfalso. apply (proj2 (hx i j)). split; [exact hij|]. split; [|exact h]. split; [|exact hc].
    assert (0 < / 10 ^ 6) by (apply Rinv_0_lt_compat; lra).
    destruct (ho i j) as [h1 h2]; [lia|lia|]. destruct (Rle_lt_or_eq_dec _ _ h1) as [h'|h']; [lra|]. rewrite (h2 h') in h. lra.
  - assert (E : ((0 <? length ((i, j) :: ph))%nat && (Z.of_nat (length ((i, j) :: ph)) <? 100000)%Z) = true).
    { rewrite andb_true_iff, Nat.ltb_lt, Z.ltb_lt. split; [cbn; lia|exact hl]. }
    rewrite E. split; [discriminate|]. intros h. exfalso. destruct (proj1 (hx i j) (or_introl eq_refl)) as [a [b c]].
    specialize (h i j a). lra.
Qed.

(** ** transfer charges *)
Section Charges.
Variables (norb N : nat) (o1 no : nat -> nat) (wf Sm : nat -> nat -> R).
Lemma transfer_symmetric k l i : mulliken_transfer norb o1 no wf Sm k l i = mulliken_transfer norb o1 no wf Sm l k i.
Proof. unfold mulliken_transfer. f_equal. apply rsum_ext. intros m _. cbv zeta. ring. Qed.
Lemma transfer_total k l : layout norb N o1 no -> symmetric norb Sm ->
  rsum N (mulliken_transfer norb o1 no wf Sm k l) = overlap norb Sm (wf k) (wf l).
Proof.
  intros hl hs.
  assert (E : rsum N (mulliken_transfer norb o1 no wf Sm k l) = rsum norb (fun a => wf k a * Swf norb wf Sm a l + wf l a * Swf norb wf Sm a k) / 2).
  { rewrite <- (atoms_sum norb N o1 no _ hl). unfold Rdiv. rewrite <- rsum_scal_r. apply rsum_ext. intros i _. reflexivity. }
  rewrite E, rsum_plus. unfold overlap, Swf.
  assert (E1 : rsum norb (fun a => wf k a * rsum norb (fun b => Sm a b * wf l b)) = rsum norb (fun a => rsum norb (fun b => wf k a * Sm a b * wf l b))).
  { apply rsum_ext. intros a _. rewrite <- rsum_scal. apply rsum_ext. intros. ring. }
  assert (E2 : rsum norb (fun a => wf l a * rsum norb (fun b => Sm a b * wf k b)) = rsum norb (fun a => rsum norb (fun b => wf k a * Sm a b * wf l b))).
  { rewrite rsum_swap. apply rsum_ext. intros a ha. rewrite <- rsum_scal. apply rsum_ext. intros b hb. rewrite (hs a b ha hb). ring. }
  rewrite E1, E2. field.
Qed.
Lemma transfer_neutral k l : layout norb N o1 no -> symmetric norb Sm -> orthonormal_states norb Sm wf -> (k < norb)%nat -> (l < norb)%nat ->
  rsum N (mulliken_transfer norb o1 no wf Sm k l) = delta k l.
Proof. intros hl hs ho hk hk'. rewrite transfer_total by assumption. apply ho; assumption. Qed.
(** moving all atoms by t does not change the transition dipoles *)
Lemma dipole_origin e f cut ph r t k x : layout norb N o1 no -> symmetric norb Sm -> orthonormal_states norb Sm wf ->
  particle_holes norb e f cut = Ok ph -> (k < length ph)%nat ->
  rv norb N o1 no wf Sm (fun i y => r i y + t y) ph k x = rv norb N o1 no wf Sm r ph k x.
Proof.
  intros hl hs ho hp hk. unfold rv.
  assert (hin : In (pair ph k) ph) by (apply nth_In; exact hk).
  destruct (pair ph k) as [i j] eqn:E. apply (proj2 (pairs_exact _ _ _ _ _ hp)) in hin. destruct hin as [hij _].
  transitivity (rsum N (fun i0 => transfer_q norb o1 no wf Sm ph k i0 * r i0 x) + rsum N (transfer_q norb o1 no wf Sm ph k) * t x).
  { rewrite <- rsum_scal_r, <- rsum_plus. apply rsum_ext. intros. ring. }
  unfold transfer_q at 2. rewrite E. cbn [fst snd].
  change (rsum N (fun i0 => mulliken_transfer norb o1 no wf Sm i j i0)) with (rsum N (mulliken_transfer norb o1 no wf Sm i j)).
  rewrite transfer_neutral by (try assumption; lia). unfold delta. replace (i =? j)%nat with false by (symmetry; apply Nat.eqb_neq; lia). ring.
Qed.
End Charges.
