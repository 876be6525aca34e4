From Coq Require Import Reals ZArith List Bool Arith Lia Lra.
From Verif Require Import Vec GeomModel GeomProofs RhoModel RhoSpec RhoProofs LrModel LrSpec LrProofs LrProofs2.
Import ListNotations.
Open Scope R_scope.

(** statements of LrProofs without its section *)
Lemma q_sym norb o1 no wf S k l i : mulliken_transfer norb o1 no wf S k l i = mulliken_transfer norb o1 no wf S l k i.
Proof. apply transfer_symmetric. Qed.
Lemma q_total norb N o1 no wf S k l : layout norb N o1 no -> symmetric norb S ->
  rsum N (mulliken_transfer norb o1 no wf S k l) = overlap norb S (wf k) (wf l).
Proof. apply transfer_total. Qed.
Lemma q_neutral norb N o1 no wf S k l : layout norb N o1 no -> symmetric norb S -> orthonormal_states norb S wf -> (k < norb)%nat -> (l < norb)%nat ->
  rsum N (mulliken_transfer norb o1 no wf S k l) = delta k l.
Proof. apply transfer_neutral. Qed.
Lemma q_origin norb N o1 no wf S e f cut ph r t k x : layout norb N o1 no -> symmetric norb S -> orthonormal_states norb S wf ->
  particle_holes norb e f cut = Ok ph -> (k < length ph)%nat ->
  rv norb N o1 no wf S (fun i y => r i y + t y) ph k x = rv norb N o1 no wf S r ph k x.
Proof. apply dipole_origin. Qed.
Lemma pairs_proper norb e f cut ph : particle_holes norb e f cut = Ok ph -> proper e f ph.
Proof. intros h i j hij. apply (select_ok _ _ _ _ _ h). exact hij. Qed.
Lemma matrix_sym norb N o1 no e f wf S gamma cut ph SCC : particle_holes norb e f cut = Ok ph -> symmetric N gamma ->
  symmetric (length ph) (matrix norb N o1 no e f wf S SCC gamma ph).
Proof. intros h. apply matrix_symmetric. eapply pairs_proper; eauto. Qed.
Lemma interaction_form norb N o1 no e f wf S gamma cut ph v : particle_holes norb e f cut = Ok ph ->
  let q a := rsum (length ph) (fun k => let '(i, j) := nth k ph (0, 0)%nat in v k * sqrt ((f i - f j) / 2 * (e j - e i)) * mulliken_transfer norb o1 no wf S i j a) in
  rsum (length ph) (fun k => v k * rsum (length ph) (fun l => matrix norb N o1 no e f wf S true gamma ph k l * v l)) =
  rsum (length ph) (fun k => let '(i, j) := nth k ph (0, 0)%nat in (e j - e i) ^ 2 * v k ^ 2) + 2 * rsum N (fun a => rsum N (fun b => q a * gamma a b * q b)).
Proof.
  intros h q. rewrite (quadratic norb N o1 no e f wf S gamma ph (pairs_proper _ _ _ _ _ h) v). f_equal.
  - apply rsum_ext. intros k _. unfold de, energy, pair. destruct (nth k ph (0%nat, 0%nat)). reflexivity.
  - assert (E : forall a, charge_of norb o1 no e f wf S ph v a = q a).
    { intros a. apply rsum_ext. intros k _. unfold amp, df, de, energy, occup, transfer_q, pair. destruct (nth k ph (0%nat, 0%nat)). reflexivity. }
    f_equal. apply rsum_ext. intros a _. apply rsum_ext. intros b _. rewrite !E. reflexivity.
Qed.
Lemma spectrum_plain norb N o1 no e f wf S gamma cut ph w : particle_holes norb e f cut = Ok ph ->
  ((exists v, eigenvector (length ph) (matrix norb N o1 no e f wf S false gamma ph) w v) <-> exists i j, In (i, j) ph /\ w = (e j - e i) ^ 2).
Proof.
  intros h. rewrite plain_spectrum. split.
  - intros [k [hk ->]]. unfold de, energy. exists (fst (pair ph k)), (snd (pair ph k)). split; [|reflexivity].
    rewrite <- surjective_pairing. apply nth_In. exact hk.
  - intros [i [j [hin ->]]]. destruct (In_nth _ _ (0%nat, 0%nat) hin) as [k [hk E]]. exists k. split; [exact hk|]. unfold de, energy, pair. rewrite E. reflexivity.
Qed.
Lemma spectrum_raised norb N o1 no e f wf S gamma cut ph w v : particle_holes norb e f cut = Ok ph -> positive_semidefinite N gamma ->
  eigenvector (length ph) (matrix norb N o1 no e f wf S true gamma ph) w v -> exists i j, In (i, j) ph /\ 0 < e j - e i <= sqrt w.
Proof.
  intros h hg he. pose proof (pairs_proper _ _ _ _ _ h) as hp. destruct (spectrum_bound norb N o1 no e f wf S gamma ph hp w v hg he) as [k [hk hw]].
  assert (hin : In (pair ph k) ph) by (apply nth_In; exact hk). unfold de, energy in hw. destruct (pair ph k) as [i j]. cbn [fst snd] in hw.
  exists i, j. split; [exact hin|]. destruct (hp i j hin) as [h1 _]. split; [lra|]. rewrite <- (sqrt_pow2 (e j - e i)) by lra. apply sqrt_le_1_alt. exact hw.
Qed.
Lemma strengths_sum norb N o1 no e f wf S SCC gamma r cut ph omega2 eigv : particle_holes norb e f cut = Ok ph -> positive_semidefinite N gamma ->
  diagonalised (length ph) (matrix norb N o1 no e f wf S SCC gamma ph) omega2 eigv ->
  (forall ex, (ex < length ph)%nat -> 0 <= strength norb N o1 no e f wf S r ph omega2 eigv ex) /\
  rsum (length ph) (strength norb N o1 no e f wf S r ph omega2 eigv) =
  8 / 3 * rsum (length ph) (fun k => let '(i, j) := nth k ph (0, 0)%nat in
    (f i - f j) / 2 * (e j - e i) * rsum 3 (fun x => rsum N (fun a => mulliken_transfer norb o1 no wf S i j a * r a x) ^ 2)).
Proof.
  intros h hg [hd ho]. pose proof (pairs_proper _ _ _ _ _ h) as hp.
  assert (hpos : forall ex, (ex < length ph)%nat -> 0 < omega2 ex).
  { intros ex hex.
    assert (hev : eigenvector (length ph) (matrix norb N o1 no e f wf S SCC gamma ph) (omega2 ex) (fun k => eigv k ex)).
    { split; [|intros i hi; apply hd; assumption]. pose proof (ho ex ex hex hex) as h1. unfold delta in h1. rewrite Nat.eqb_refl in h1.
      assert (D : (exists k, (k < length ph)%nat /\ eigv k ex <> 0) \/ forall k, (k < length ph)%nat -> eigv k ex = 0).
      { clear. induction (length ph) as [|m IH]; [right; intros; lia|]. destruct IH as [[k [a b]]|a]; [left; exists k; split; [lia|exact b]|].
        destruct (Req_dec (eigv m ex) 0) as [E|E]; [|left; exists m; split; [lia|exact E]]. right. intros k hk. destruct (Nat.eq_dec k m) as [->|]; [exact E|apply a; lia]. }
      destruct D as [D|D]; [exact D|]. exfalso. rewrite rsum_eq0 in h1; [lra|]. intros i hi. rewrite D by exact hi. ring. }
    destruct SCC.
    - destruct (spectrum_bound _ _ _ _ _ _ _ _ _ _ hp _ _ hg hev) as [k [hk hw]]. destruct (de_pos e f ph hp k hk) as [a _]. nra.
    - destruct (proj1 (plain_spectrum norb N o1 no e f wf S gamma ph (omega2 ex)) (ex_intro _ _ hev)) as [k [hk ->]]. destruct (de_pos e f ph hp k hk) as [a _]. nra. }
  split.
  - intros ex hex. apply strength_nonneg, hpos, hex.
  - rewrite sum_rule by assumption. f_equal. apply rsum_ext. intros k hk. unfold df, de, energy, occup, rv, transfer_q, pair. destruct (nth k ph (0%nat, 0%nat)) as [i j]. reflexivity.
Qed.
(** rotating, reflecting and moving the molecule *)
Lemma strength_frame norb N o1 no e f wf S r cut ph omega2 eigv Q t ex : layout norb N o1 no -> symmetric norb S -> orthonormal_states norb S wf ->
  particle_holes norb e f cut = Ok ph -> orthogonal3 Q ->
  strength norb N o1 no e f wf S (moved Q t r) ph omega2 eigv ex = strength norb N o1 no e f wf S r ph omega2 eigv ex.
Proof.
  intros hl hs ho hp hQ.
  set (A := fun x => moment norb N o1 no e f wf S r ph omega2 eigv ex x).
  assert (E : forall x, moment norb N o1 no e f wf S (moved Q t r) ph omega2 eigv ex x = rsum 3 (fun y => Q x y * A y)).
  { intros x. unfold A, moment.
    transitivity (rsum (length ph) (fun k => rsum 3 (fun y => Q x y * (rv norb N o1 no wf S r ph k y * sqrt (df f ph k * de e ph k) * eigv k ex))) / sqrt (omega omega2 ex) * 2).
    - f_equal. f_equal. apply rsum_ext. intros k hk.
      assert (E1 : rv norb N o1 no wf S (moved Q t r) ph k x = rsum 3 (fun y => Q x y * rv norb N o1 no wf S r ph k y)).
      { transitivity (rv norb N o1 no wf S (fun i y => (fun i y => rsum 3 (fun z => Q y z * r i z)) i y + t y) ph k x); [reflexivity|].
        rewrite (dipole_origin norb N o1 no wf S e f cut ph _ t k x hl hs ho hp hk). unfold rv.
        transitivity (rsum N (fun i => rsum 3 (fun z => Q x z * (transfer_q norb o1 no wf S ph k i * r i z)))).
        - apply rsum_ext. intros i _. rewrite <- rsum_scal. apply rsum_ext. intros. ring.
        - rewrite rsum_swap. apply rsum_ext. intros z _. rewrite rsum_scal. reflexivity. }
      rewrite E1, Rmult_assoc, <- rsum_scal_r. apply rsum_ext. intros. ring.
    - rewrite rsum_swap. unfold Rdiv. rewrite !Rmult_assoc, <- rsum_scal_r. apply rsum_ext. intros y _. rewrite rsum_scal. ring. }
  unfold strength. f_equal. f_equal. f_equal. fold A.
  transitivity (rsum 3 (fun x => rsum 3 (fun y => rsum 3 (fun z => (Q x y * Q x z) * (A y * A z))))).
  - apply rsum_ext. intros x _. rewrite E, rsum_prod. apply rsum_ext. intros y _. apply rsum_ext. intros z _. ring.
  - rewrite rsum_swap. apply rsum_ext. intros y hy. rewrite rsum_swap.
    transitivity (rsum 3 (fun z => delta y z * (A y * A z))).
    + apply rsum_ext. intros z hz. rewrite rsum_scal_r, hQ by assumption. reflexivity.
    + apply delta_sum. exact hy.
Qed.
Lemma collectivity_range A omega2 eigv (ph : list (nat * nat)) ex : diagonalised (length ph) A omega2 eigv -> (ex < length ph)%nat -> 1 <= collectivity ph eigv ex <= INR (length ph).
Proof.
  intros [_ h] hex. apply collectivity_bounds; [lia|]. rewrite h by exact hex. unfold delta. rewrite Nat.eqb_refl. reflexivity.
Qed.

Definition members (n : nat) (p : nat -> bool) : nat := length (filter p (seq 0 n)).
Lemma members_sum n (p : nat -> bool) : rsum n (fun k => if p k then 1 else 0) = INR (members n p).
Proof.
  unfold members. induction n as [|n IH]; [reflexivity|]. cbn [rsum]. rewrite IH, seq_S, filter_app, app_length, plus_INR. cbn [filter Nat.add].
  destruct (p n); reflexivity.
Qed.
(** m pairs of equal weight have collectivity m *)
Lemma collectivity_equal eigv (ph : list (nat * nat)) ex p : (0 < length (filter p (seq 0 (length ph))))%nat ->
  (forall k, (k < length ph)%nat -> eigv k ex ^ 2 = if p k then / INR (length (filter p (seq 0 (length ph)))) else 0) ->
  collectivity ph eigv ex = INR (length (filter p (seq 0 (length ph)))).
Proof.
  fold (members (length ph) p). intros hm h. set (M := members (length ph) p) in *. assert (hM : 0 < INR M) by (apply lt_0_INR; exact hm).
  unfold collectivity. rewrite (rsum_ext _ _ (fun k => / INR M ^ 2 * (if p k then 1 else 0))).
  - rewrite rsum_scal, members_sum. fold M. field. lra.
  - intros k hk. replace (eigv k ex ^ 4) with ((eigv k ex ^ 2) ^ 2) by ring. rewrite (h k hk). destruct (p k); field; lra.
Qed.
(** ** get_excitation *)
Lemma count_mono F a b : (a <= b)%nat -> (count_allowed F a <= count_allowed F b)%nat.
Proof. induction 1 as [|b h IH]; [lia|]. cbn [count_allowed]. lia. Qed.
Lemma nth_allowed_spec F n : forall s i, (Z.of_nat (count_allowed F s) <= Z.of_nat i)%Z ->
  forall k, nth_allowed F (seq s n) (Z.of_nat (count_allowed F s) - 1) (Z.of_nat i) = Some k <->
  (s <= k < s + n)%nat /\ / 100 <= F k /\ count_allowed F k = i.
Proof.
  induction n as [|n IH]; intros s0 i hi k; cbn [seq nth_allowed]; [split; [discriminate|intros [h _]; lia]|].
  destruct (leb (/ 100) (F s0)) eqn:E.
  - apply leb_true in E. destruct (Z.eqb_spec (Z.of_nat (count_allowed F s0) - 1 + 1) (Z.of_nat i)) as [hz|hz].
    + split.
      * intros h. inversion h; subst k. split; [lia|]. split; [exact E|lia].
      * intros [hk [hF hc]]. f_equal. destruct (Nat.eq_dec s0 k) as [h|h]; [exact h|]. exfalso.
        assert (count_allowed F (S s0) <= count_allowed F k)%nat by (apply count_mono; lia). cbn [count_allowed] in H. destruct (Rle_dec (/ 100) (F s0)); [lia|contradiction].
    + assert (Ec : Z.of_nat (count_allowed F (S s0)) = (Z.of_nat (count_allowed F s0) + 1)%Z) by (cbn [count_allowed]; destruct (Rle_dec (/ 100) (F s0)); [lia|contradiction]).
      replace (Z.of_nat (count_allowed F s0) - 1 + 1)%Z with (Z.of_nat (count_allowed F (S s0)) - 1)%Z by lia. rewrite IH by lia.
      split; intros [a [b c]]; (split; [|split; assumption]); [lia|]. destruct (Nat.eq_dec s0 k) as [h|h]; [subst k; lia|lia].
  - apply leb_false in E. destruct (Z.eqb_spec (Z.of_nat (count_allowed F s0) - 1) (Z.of_nat i)) as [hz|hz]; [lia|].
    assert (Ec : count_allowed F (S s0) = count_allowed F s0) by (cbn [count_allowed]; destruct (Rle_dec (/ 100) (F s0)); [lra|lia]).
    rewrite <- Ec at 1. rewrite IH by lia.
    split; intros [a [b c]]; (split; [|split; assumption]); [lia|]. destruct (Nat.eq_dec s0 k) as [h|h]; [subst k; lra|lia].
Qed.
Lemma excitation_spec dim F i k : get_excitation dim F i true = Some k <-> (k < dim)%nat /\ / 100 <= F k /\ count_allowed F k = i.
Proof.
  unfold get_excitation. cbn [negb]. pose proof (nth_allowed_spec F dim 0 i ltac:(cbn; lia) k) as h. cbn [count_allowed Z.of_nat Z.sub Z.add Z.opp] in h.
  rewrite h. split; intros [a b]; (split; [lia|exact b]).
Qed.
Lemma excitation_none dim F i : get_excitation dim F i true = None <-> (count_allowed F dim <= i)%nat.
Proof.
  split.
  - intros h. destruct (le_lt_dec (count_allowed F dim) i) as [hl|hl]; [exact hl|]. exfalso.
    assert (K : forall n, (i < count_allowed F n)%nat -> exists k, (k < n)%nat /\ / 100 <= F k /\ count_allowed F k = i).
    { induction n as [|n IH]; cbn [count_allowed]; [lia|]. intros hn. destruct (le_lt_dec (count_allowed F n) i) as [h1|h1].
      - destruct (Rle_dec (/ 100) (F n)) as [h2|h2]; [exists n; repeat split; [lia|exact h2|lia]|lia].
      - destruct (IH h1) as [k [a b]]. exists k. split; [lia|exact b]. }
    destruct (K dim hl) as [k hk]. apply excitation_spec in hk. rewrite h in hk. discriminate.
  - intros h. destruct (get_excitation dim F i true) as [k|] eqn:E; [|reflexivity]. exfalso. apply excitation_spec in E. destruct E as [a [b c]].
    assert (h1 : (count_allowed F (S k) <= count_allowed F dim)%nat) by (apply count_mono; lia). cbn [count_allowed] in h1. destruct (Rle_dec (/ 100) (F k)); [lia|contradiction].
Qed.
Lemma excitation_any dim F i : get_excitation dim F i false = if (i <? dim)%nat then Some i else None.
Proof. reflexivity. Qed.
(** what is refused *)
Lemma init_errors imag pbc : (lr_init imag pbc = Ok tt <-> (forall x, In x imag -> Rabs x <= / 10 ^ 10) /\ pbc = (false, false, false)).
Proof.
  unfold lr_init. destruct pbc as [[a b] c]. destruct (existsb (fun x => ltb (/ 10 ^ 10) (Rabs x)) imag) eqn:E.
  - split; [discriminate|]. intros [h _]. exfalso. apply existsb_exists in E. destruct E as [x [hx hl]]. apply ltb_true in hl. specialize (h x hx). lra.
  - assert (h : forall x, In x imag -> Rabs x <= / 10 ^ 10).
    { intros x hx. destruct (Rle_lt_dec (Rabs x) (/ 10 ^ 10)) as [h|h]; [exact h|]. exfalso. rewrite <- not_true_iff_false in E. apply E. apply existsb_exists. exists x. split; [exact hx|apply ltb_true; exact h]. }
    destruct a, b, c; cbn [orb]; split; try discriminate; try (intros [_ h0]; discriminate); auto.
Qed.

(** ** concrete case: two orbitals on two atoms *)
Definition y_e (i : nat) : R := match i with O => - 1 / 2 | _ => / 2 end.
Definition y_f (i : nat) : R := match i with O => 2 | _ => 0 end.
Definition y_wf (k a : nat) : R := match k, a with O, O => 3 / 5 | O, _ => 4 / 5 | _, O => 4 / 5 | _, _ => - 3 / 5 end.
Definition y_one (i : nat) : nat := 1%nat.
Definition y_id (i : nat) : nat := i.
Example y_ordered : ordered 2 y_e y_f.
Proof. intros [|[|i]] [|[|j]] h1 h2; try lia; unfold y_e, y_f; split; intros; lra. Qed.
Example y_pairs : particle_holes 2 y_e y_f 2 = Ok [(0%nat, 1%nat)].
Proof.
  assert (hp : exists ph, particle_holes 2 y_e y_f 2 = Ok ph) by (apply pairs_returned, y_ordered). destruct hp as [ph hp]. rewrite hp. f_equal.
  apply select_ok in hp. destruct hp as [-> _]. cbn [all_pairs flat_map seq map app filter fst snd Nat.sub Nat.add].
  assert (E : selected y_e y_f 2 0 1 = true) by (apply selected_iff; unfold y_e, y_f; split; [lra|]; apply Rlt_le_trans with (/ 1); [apply Rinv_lt_contravar; lra|lra]).
  rewrite E. reflexivity.
Qed.
Example y_layout : layout 2 2 y_id y_one.
Proof. split; [|reflexivity]. intros [|[|I]] h; [reflexivity|reflexivity|lia]. Qed.
Example y_orthonormal : orthonormal_states 2 delta y_wf /\ symmetric 2 delta.
Proof.
  split.
  - intros [|[|k]] [|[|l]] hk hl; try lia; unfold overlap, delta; cbn; field.
  - intros [|[|a]] [|[|b]] ha hb; try lia; reflexivity.
Qed.
Example y_psd : positive_semidefinite 2 delta.
Proof. intros q. unfold delta. cbn. nra. Qed.
Example y_diagonalised : exists w, diagonalised 1 (matrix 2 2 y_id y_one y_e y_f y_wf delta true delta [(0%nat, 1%nat)]) w delta.
Proof.
  exists (fun _ => matrix 2 2 y_id y_one y_e y_f y_wf delta true delta [(0%nat, 1%nat)] 0 0). split.
  - intros [|x] [|i] hx hi; try lia. unfold rsum. cbn [delta Nat.eqb]. rewrite Rplus_0_l. reflexivity.
  - intros [|x] [|y] hx hy; try lia. unfold rsum, delta. cbn [Nat.eqb]. ring.
Qed.
