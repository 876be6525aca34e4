From Coq Require Import Reals List Bool Arith Lra Lia.
From Verif Require Import Vec GeomModel GeomProofs CoulProofs GapModel GapSpec GapProofs.
Import ListNotations.
Open Scope R_scope.
Local Opaque big.

Lemma collect_none {A} (l : list (option (list A))) : In None l -> collect l = None.
Proof. induction l as [|[x|] l IH]; intros H; cbn [collect]; [destruct H| |reflexivity]. destruct H as [H|H]; [discriminate|]. rewrite IH by exact H. reflexivity. Qed.
Lemma collect_some {A} (l : list (option (list A))) y : collect l = Some y -> exists xs, l = map Some xs /\ y = concat xs.
Proof.
  revert y. induction l as [|[x|] l IH]; intros y; cbn [collect]; [intros E; injection E as <-; exists []; auto| |discriminate].
  destruct (collect l) as [z|]; [|discriminate]. intros E. injection E as <-. destruct (IH z eq_refl) as (xs & -> & ->). exists (x :: xs). split; reflexivity.
Qed.
Lemma collect_map {A B} (g : A -> option (list B)) (h : A -> list B) l : (forall a, In a l -> g a = Some (h a)) -> collect (map g l) = Some (flat_map h l).
Proof.
  induction l as [|a l IH]; intros H; cbn [map collect flat_map]; [reflexivity|]. rewrite (H a) by (left; reflexivity). rewrite IH by (intros; apply H; right; assumption). reflexivity.
Qed.
Lemma collect_map_inv {A B} (g : A -> option (list B)) l y : collect (map g l) = Some y -> (forall a, In a l -> g a <> None) /\ y = flat_map (fun a => match g a with Some x => x | None => [] end) l.
Proof.
  intros E. assert (N : forall a, In a l -> g a <> None) by (intros a Ha X; rewrite collect_none in E; [discriminate|rewrite <- X; apply in_map; exact Ha]).
  split; [exact N|]. rewrite (collect_map g (fun a => match g a with Some x => x | None => [] end)) in E; [injection E as <-; reflexivity|].
  intros a Ha. destruct (g a) eqn:X; [reflexivity|]. elim (N a Ha X).
Qed.
Lemma in_prange x a b : In x (prange a b) <-> (a <= x < b)%nat.
Proof. unfold prange. rewrite in_seq. lia. Qed.
Lemma index_some n p i : index_true n p = Some i <-> (i < n)%nat /\ p i = true /\ forall j, (j < i)%nat -> p j = false.
Proof. unfold index_true. rewrite find_seq_some. split; intros (A & B & C); (split; [lia|split; [exact B|intros; apply C; lia]]). Qed.
Lemma index_none n p : index_true n p = None <-> forall j, (j < n)%nat -> p j = false.
Proof. unfold index_true. rewrite find_seq_none. split; intros H j Hj; apply H; lia. Qed.
(** ** the default call *)
Lemma transitions_default norb e f : (0 < norb)%nat -> (forall i j, (i < norb)%nat -> (j < norb)%nat -> Rabs (e i - e j) < big) -> transitions norb e f big = None.
Proof.
  intros Hn B. unfold transitions. destruct (index_true norb (fun i => ltb (f i) (2 - otol))) as [bmin|] eqn:E1; [|reflexivity].
  apply index_some in E1. destruct E1 as (E1 & _). destruct (index_true norb (fun i => ltb (e bmin - big) (e i))) as [amin|] eqn:E2; [|reflexivity].
  apply index_some in E2. destruct E2 as (E2 & _ & E3). destruct (index_true norb (fun i => ltb (f i) otol)) as [amax|] eqn:E4; [|reflexivity].
  assert (amin = 0)%nat as ->. { destruct amin as [|n]; [reflexivity|]. specialize (E3 0%nat ltac:(lia)). apply ltb_false in E3. pose proof (B 0%nat bmin Hn E1) as X. apply Rabs_def2 in X. lra. }
  apply collect_none. apply in_map_iff. exists 0%nat. split; [|apply in_prange; lia]. unfold transitions_from.
  rewrite (proj2 (index_none norb (fun i => ltb (e 0%nat + big) (e i)))); [reflexivity|]. intros j Hj. apply ltb_false. pose proof (B j 0%nat Hj Hn) as X. apply Rabs_def2 in X. lra.
Qed.
Lemma default_fails nk norb e f : (0 < nk)%nat -> (0 < norb)%nat -> (forall k i j, (k < nk)%nat -> (i < norb)%nat -> (j < norb)%nat -> Rabs (e k i - e k j) < big) ->
  dielectric_transitions nk norb e f None = None.
Proof.
  intros Hk Hn B. unfold dielectric_transitions. rewrite collect_none; [reflexivity|]. apply in_map_iff. exists 0%nat. split; [|apply in_seq; lia].
  rewrite transitions_default; [reflexivity|exact Hn|]. intros i j Hi Hj. apply B; assumption.
Qed.
(** ** the excitations found with a cutoff *)
Section One.
Variables (norb : nat) (e f : nat -> R) (c : R) (l : list (nat * nat)).
Hypothesis Hs : sorted_bands norb e f.
Hypothesis El : transitions norb e f c = Some l.
Lemma trans_struct : exists bmin amin amax, index_true norb (fun i => ltb (f i) (2 - otol)) = Some bmin /\ index_true norb (fun i => ltb (e bmin - c) (e i)) = Some amin /\
  index_true norb (fun i => ltb (f i) otol) = Some amax /\ (forall a, In a (prange amin (amax + 1)) -> transitions_from norb e f c bmin a <> None) /\
  l = flat_map (fun a => match transitions_from norb e f c bmin a with Some x => x | None => [] end) (prange amin (amax + 1)).
Proof.
  unfold transitions in El. destruct (index_true norb (fun i => ltb (f i) (2 - otol))) as [bmin|]; [|discriminate]. destruct (index_true norb (fun i => ltb (e bmin - c) (e i))) as [amin|] eqn:E2; [|discriminate].
  destruct (index_true norb (fun i => ltb (f i) otol)) as [amax|]; [|discriminate]. apply collect_map_inv in El. exists bmin, amin, amax. split; [reflexivity|]. split; [exact E2|]. split; [reflexivity|exact El].
Qed.
Lemma trans_sound a b : In (a, b) l -> (a < b < norb)%nat /\ otol <= f a - f b /\ (forall b', (b' < b)%nat -> e b' <= e a + c).
Proof.
  destruct trans_struct as (bmin & amin & amax & E1 & E2 & E3 & E4 & ->). intros H. apply in_flat_map in H. destruct H as (a' & Ha & H). unfold transitions_from in H.
  destruct (index_true norb (fun i => ltb (e a' + c) (e i))) as [bmax|] eqn:E; [|destruct H]. apply in_map_iff in H. destruct H as (b' & X & H). injection X as -> ->.
  apply filter_In in H. destruct H as [H1 H2]. apply in_prange in H1. apply negb_true_iff, ltb_false in H2. apply index_some in E. destruct E as (E5 & E6 & E7).
  split; [lia|]. split; [lra|]. intros b0 Hb. specialize (E7 b0 ltac:(lia)). apply ltb_false in E7. exact E7.
Qed.
Lemma trans_complete a b : (a < b < norb)%nat -> otol <= f a - f b -> f b < 2 - otol -> e b < e a + c -> In (a, b) l.
Proof.
  destruct trans_struct as (bmin & amin & amax & E1 & E2 & E3 & E4 & ->). intros Hab Hf Hb He.
  apply index_some in E1, E2, E3. destruct E1 as (B1 & B2 & B3). destruct E2 as (A1 & A2 & A3). destruct E3 as (C1 & C2 & C3).
  apply ltb_true in B2, A2, C2.
  assert (Hbm : (bmin <= b)%nat). { destruct (le_lt_dec bmin b) as [X|X]; [exact X|]. specialize (B3 b X). apply ltb_false in B3. lra. }
  assert (Ham : (amin <= a)%nat). { destruct (le_lt_dec amin a) as [X|X]; [exact X|]. specialize (A3 a X). apply ltb_false in A3. destruct (Hs bmin b Hbm ltac:(lia)) as [Y _]. lra. }
  assert (Hax : (a < amax)%nat). { destruct (le_lt_dec amax a) as [X|X]; [|exact X]. destruct (Hs amax a X ltac:(lia)) as (_ & Y & _). destruct (Hs a b ltac:(lia) ltac:(lia)) as (_ & _ & Z0 & _). lra. }
  assert (Hin : In a (prange amin (amax + 1))) by (apply in_prange; lia). apply in_flat_map. exists a. split; [exact Hin|]. specialize (E4 a Hin). unfold transitions_from in *.
  destruct (index_true norb (fun i => ltb (e a + c) (e i))) as [bmax|] eqn:E; [|elim E4; reflexivity]. apply index_some in E. destruct E as (E5 & E6 & E7). apply ltb_true in E6.
  apply in_map. apply filter_In. split; [|apply negb_true_iff, ltb_false; lra]. apply in_prange. split; [lia|].
  destruct (le_lt_dec bmax b) as [X|X]; [|lia]. destruct (Hs bmax b X ltac:(lia)) as [Y _]. lra.
Qed.
Lemma trans_nodup : NoDup l.
Proof.
  destruct trans_struct as (bmin & amin & amax & _ & _ & _ & _ & ->). apply nodup_flat_map.
  - apply seq_NoDup.
  - intros a _. unfold transitions_from. destruct (index_true norb (fun i => ltb (e a + c) (e i))); [|constructor]. apply FinFun.Injective_map_NoDup; [intros x y E; congruence|]. apply NoDup_filter, seq_NoDup.
  - intros a a' x _ _ Hx Hx'. unfold transitions_from in *. destruct (index_true norb (fun i => ltb (e a + c) (e i))); [|destruct Hx]. destruct (index_true norb (fun i => ltb (e a' + c) (e i))); [|destruct Hx'].
    apply in_map_iff in Hx, Hx'. destruct Hx as (b & <- & _). destruct Hx' as (b' & E & _). congruence.
Qed.
End One.
Lemma dielectric_list nk norb e f c l : (forall k, (k < nk)%nat -> sorted_bands norb (e k) (f k)) -> dielectric_transitions nk norb e f (Some c) = Some l ->
  NoDup l /\
  (forall k a b, In (k, (a, b)) l -> (k < nk)%nat /\ (a < b < norb)%nat /\ otol <= f k a - f k b /\ (forall b', (b' < b)%nat -> e k b' <= e k a + c)) /\
  (forall k a b, (k < nk)%nat -> (a < b < norb)%nat -> otol <= f k a - f k b -> f k b < 2 - otol -> e k b < e k a + c -> In (k, (a, b)) l).
Proof.
  intros Hs. unfold dielectric_transitions. destruct (collect _) as [y|] eqn:E; [|discriminate]. apply collect_map_inv in E. destruct E as [N E]. intros X.
  assert (l = y) as ->. { destruct y; [discriminate|]. injection X as <-. reflexivity. } clear X. rewrite E. clear E.
  assert (G : forall k, In k (seq 0 nk) -> exists t, transitions norb (e k) (f k) c = Some t /\ (match match transitions norb (e k) (f k) c with None => None | Some l => Some (map (fun x => (k, x)) l) end with Some x => x | None => [] end) = map (fun x => (k, x)) t).
  { intros k Hk. specialize (N k Hk). destruct (transitions norb (e k) (f k) c) as [t|]; [exists t; auto|elim N; reflexivity]. }
  split; [|split].
  - apply nodup_flat_map; [apply seq_NoDup| |].
    + intros k Hk. destruct (G k Hk) as (t & Et & ->). apply FinFun.Injective_map_NoDup; [intros x z Z; congruence|]. eapply trans_nodup; eauto.
    + intros k k' x Hk Hk' Hx Hx'. destruct (G k Hk) as (t & _ & Et). rewrite Et in Hx. destruct (G k' Hk') as (t' & _ & Et'). rewrite Et' in Hx'.
      apply in_map_iff in Hx, Hx'. destruct Hx as (z & <- & _). destruct Hx' as (z' & Z & _). congruence.
  - intros k a b H. apply in_flat_map in H. destruct H as (k' & Hk & H). destruct (G k' Hk) as (t & Et & Em). rewrite Em in H. apply in_map_iff in H. destruct H as (x & Z & H). injection Z as -> ->.
    apply in_seq in Hk. split; [lia|]. eapply trans_sound; eauto.
  - intros k a b Hk Hab Hf Hb He. apply in_flat_map. exists k. assert (Hk' : In k (seq 0 nk)) by (apply in_seq; lia). split; [exact Hk'|]. destruct (G k Hk') as (t & Et & ->). apply in_map.
    eapply trans_complete; eauto.
Qed.
(** ** concrete cases *)
(** two levels and a far third one: gap, indices and excitation *)
Definition x_e (k a : nat) : R := match a with O => -1 | 1%nat => 2 | _ => 9 end.
Definition x_f (k a : nat) : R := match a with O => 2 | _ => 0 end.
Example x_sized : sized 1 3 x_e 0 /\ filling 1 3 x_e x_f /\ has_below 1 3 x_e 0 /\ has_above 1 3 x_e 0.
Proof.
  split; [|split; [split|split]].
  - pose proof big_gt. intros k a _. unfold x_e. rewrite Rminus_0_r. destruct a as [|[|a]]; unfold Rabs; destruct (Rcase_abs _); lra.
  - intros k a _. unfold x_f. destruct a; lra.
  - intros k a k' a' _ _. unfold x_e, x_f. destruct a as [|[|a]]; destruct a' as [|[|a']]; lra.
  - exists 0%nat, 0%nat. split; [split; lia|unfold x_e; lra].
  - exists 0%nat, 1%nat. split; [split; lia|unfold x_e; lra].
Qed.
Example x_gap : exists p, get_energy_gap 1 3 x_e x_f 0 = Some (3, p).
Proof.
  destruct x_sized as (S & _ & B & A). destruct (get_energy_gap 1 3 x_e x_f 0) as [[g p]|] eqn:E.
  - destruct (gap_value _ _ _ _ _ _ _ S E) as (k & a & k' & a' & (S1 & L1 & M1) & (S2 & L2 & M2) & -> & _). exists p. f_equal. f_equal.
    pose proof (M1 0%nat 0%nat ltac:(split; lia) ltac:(unfold x_e; lra)) as Q1. pose proof (M2 0%nat 1%nat ltac:(split; lia) ltac:(unfold x_e; lra)) as Q2.
    unfold x_e in *. destruct a as [|[|a]]; destruct a' as [|[|a']]; lra.
  - apply (gap_error _ _ _ x_f _ S) in E. tauto.
Qed.
Example x_sorted : forall k, (k < 1)%nat -> sorted_bands 3 (x_e k) (x_f k).
Proof. intros k _ a b Hab Hb. unfold x_e, x_f. destruct a as [|[|a]]; destruct b as [|[|b]]; try lia; repeat split; lra. Qed.
Example x_transitions : dielectric_transitions 1 3 x_e x_f (Some 4) = Some [(0%nat, (0%nat, 1%nat)); (0%nat, (0%nat, 2%nat))].
Proof.
  assert (T : transitions 3 (x_e 0) (x_f 0) 4 = Some [(0%nat, 1%nat); (0%nat, 2%nat)]).
  { unfold transitions. rewrite (proj2 (index_some 3 (fun i => ltb (x_f 0 i) (2 - otol)) 1%nat)).
    2:{ split; [lia|]. split; [apply ltb_true; unfold x_f, otol; lra|]. intros j Hj. replace j with 0%nat by lia. apply ltb_false. unfold x_f, otol. lra. }
    rewrite (proj2 (index_some 3 (fun i => ltb (x_e 0 1 - 4) (x_e 0 i)) 0%nat)) by (split; [lia|split; [apply ltb_true; unfold x_e; lra|intros; lia]]).
    rewrite (proj2 (index_some 3 (fun i => ltb (x_f 0 i) otol) 1%nat)).
    2:{ split; [lia|]. split; [apply ltb_true; unfold x_f, otol; lra|]. intros j Hj. replace j with 0%nat by lia. apply ltb_false. unfold x_f, otol. lra. }
    change (prange 0 (1 + 1)) with [0%nat; 1%nat]. cbn [map collect]. unfold transitions_from.
    rewrite (proj2 (index_some 3 (fun i => ltb (x_e 0 0 + 4) (x_e 0 i)) 2%nat)).
    2:{ split; [lia|]. split; [apply ltb_true; unfold x_e; lra|]. intros j Hj. apply ltb_false. destruct j as [|[|j]]; [| |lia]; unfold x_e; lra. }
    rewrite (proj2 (index_some 3 (fun i => ltb (x_e 0 1 + 4) (x_e 0 i)) 2%nat)).
    2:{ split; [lia|]. split; [apply ltb_true; unfold x_e; lra|]. intros j Hj. apply ltb_false. destruct j as [|[|j]]; [| |lia]; unfold x_e; lra. }
    change (prange (Nat.max (0 + 1) 1) (2 + 1)) with [1%nat; 2%nat]. change (prange (Nat.max (1 + 1) 1) (2 + 1)) with [2%nat]. cbn [filter].
    rewrite (proj2 (ltb_false (x_f 0 0 - x_f 0 1) otol)) by (unfold x_f, otol; lra). rewrite (proj2 (ltb_false (x_f 0 0 - x_f 0 2) otol)) by (unfold x_f, otol; lra).
    rewrite (proj2 (ltb_true (x_f 0 1 - x_f 0 2) otol)) by (unfold x_f, otol; lra). reflexivity. }
  unfold dielectric_transitions. cbn [seq map]. rewrite T. reflexivity.
Qed.
(** a closed shell with every orbital filled: no gap is returned *)
Lemma gap_filled_refuted : exists nk norb e f mu, (0 < nk * norb)%nat /\ sized nk norb e mu /\ filling nk norb e f /\ get_energy_gap nk norb e f mu = None.
Proof.
  exists 1%nat, 1%nat, (fun _ _ => -1), (fun _ _ => 2), 0. split; [cbn; lia|].
  assert (S : sized 1 1 (fun _ _ => -1) 0). { intros k a _. unfold Rabs. destruct (Rcase_abs (-1 - 0)); [|lra]. pose proof big_gt. lra. }
  split; [exact S|]. split; [split; intros; lra|]. apply gap_error; [exact S|]. intros [_ (k & a & _ & X)]. lra.
Qed.
Example x_frontier : get_homo 1 3 x_f 0.99 = Some 0%nat /\ get_lumo 1 3 x_f 1.01 = Some 1%nat.
Proof.
  split.
  - apply homo_spec. split; [lia|]. split; [exists 0%nat; split; [lia|unfold x_f; lra]|]. intros j k Hj _. unfold x_f. destruct j; [lia|lra].
  - apply lumo_spec. split; [lia|]. split; [exists 0%nat; split; [lia|unfold x_f; lra]|]. intros j k Hj _. unfold x_f. destruct j; [lra|lia].
Qed.
(** an excitation above the cutoff is included *)
Lemma cutoff_refuted : exists nk norb e f c l k a b, (forall k, (k < nk)%nat -> sorted_bands norb (e k) (f k)) /\
  dielectric_transitions nk norb e f (Some c) = Some l /\ In (k, (a, b)) l /\ c < e k b - e k a.
Proof.
  exists 1%nat, 3%nat, x_e, x_f, 4, [(0%nat, (0%nat, 1%nat)); (0%nat, (0%nat, 2%nat))], 0%nat, 0%nat, 2%nat.
  split; [exact x_sorted|]. split; [exact x_transitions|]. split; [right; left; reflexivity|]. unfold x_e. lra.
Qed.
