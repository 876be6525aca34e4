From Coq Require Import FunctionalExtensionality Reals ZArith List Bool Arith Lia Lra Psatz.
From Coquelicot Require Import Coquelicot.
From Verif Require Import GeomModel GeomProofs AidModel AidSpec.
Import ListNotations.
Open Scope R_scope.

(** ** finite differences *)
Lemma put_same p i c v : put p i c v i c = v. Proof. unfold put. rewrite !Nat.eqb_refl. reflexivity. Qed.
Lemma put_put p i c v w : put (put p i c v) i c w = put p i c w.
Proof. extensionality j. extensionality d. unfold put. destruct ((j =? i) && (d =? c))%nat; reflexivity. Qed.
Lemma put_id p i c : put p i c (p i c) = p.
Proof. extensionality j. extensionality d. unfold put. destruct (Nat.eqb_spec j i) as [->|]; [|reflexivity]. destruct (Nat.eqb_spec d c) as [->|]; reflexivity. Qed.
Lemma probe_spec E dx p i c : probe E dx (p i) p i c = (p, - central (along_axis E p i c) (p i c) dx).
Proof.
  unfold probe. cbv zeta. rewrite !put_put, put_id. unfold central, along_axis. f_equal. unfold Rdiv. ring.
Qed.
Lemma probe_atom_spec E dx p f i : probe_atom E dx (p, f) i =
  (p, setrow f i (- central (along_axis (E i) p i 0) (p i 0%nat) dx) (- central (along_axis (E i) p i 1) (p i 1%nat) dx) (- central (along_axis (E i) p i 2) (p i 2%nat) dx)).
Proof. unfold probe_atom. rewrite !probe_spec. reflexivity. Qed.
Lemma probes_spec E dx p : forall n f, let '(p', ffd) := fold_left (probe_atom E dx) (seq 0 n) (p, f) in
  p' = p /\ (forall i c, (i < n)%nat -> (c < 3)%nat -> ffd i c = - central (along_axis (E i) p i c) (p i c) dx) /\ (forall i c, (n <= i)%nat -> ffd i c = f i c).
Proof.
  induction n as [|n IH]; intros f.
  - cbn. repeat split; intros; lia.
  - rewrite seq_S, fold_left_app. specialize (IH f). destruct (fold_left (probe_atom E dx) (seq 0 n) (p, f)) as [p' ffd]. destruct IH as (-> & A & B).
    cbn [fold_left plus]. rewrite probe_atom_spec, Nat.add_0_l. split; [reflexivity|]. split.
    + intros i c Hi Hc. unfold setrow, put. destruct (Nat.eqb_spec i n) as [->|N].
      * destruct c as [|[|[|c]]]; cbn [Nat.eqb andb]; try reflexivity; lia.
      * cbn [andb]. apply A; lia.
    + intros i c Hi. unfold setrow, put. destruct (Nat.eqb_spec i n); [lia|]. cbn [andb]. apply B. lia.
Qed.
Lemma fold_max_ge : forall l m x, (In x l \/ x <= m) -> x <= fold_left Rmax l m.
Proof.
  induction l as [|y l IH]; intros m x H; cbn [fold_left].
  - destruct H as [[]|H]; exact H.
  - apply IH. destruct H as [[->|H]|H]; [right; apply Rmax_r|left; exact H|right]. pose proof (Rmax_l m y). lra.
Qed.
Lemma fold_max_in : forall l m, fold_left Rmax l m = m \/ In (fold_left Rmax l m) l.
Proof.
  induction l as [|y l IH]; intros m; cbn [fold_left]; [left; reflexivity|].
  destruct (IH (Rmax m y)) as [E|E]; [|right; right; exact E]. rewrite E. unfold Rmax. destruct (Rle_dec m y); [right; left; reflexivity|left; reflexivity].
Qed.
Lemma maxabs_spec N d : (1 <= N)%nat -> (forall i c, (i < N)%nat -> (c < 3)%nat -> Rabs (d i c) <= maxabs N d) /\ (exists i c, (i < N)%nat /\ (c < 3)%nat /\ maxabs N d = Rabs (d i c)).
Proof.
  intros HN. unfold maxabs. split.
  - intros i c Hi Hc. apply fold_max_ge. left. apply in_flat_map. exists i. split; [apply in_seq; lia|]. apply in_map_iff. exists c. split; [reflexivity|apply in_seq; lia].
  - destruct (fold_max_in (flat_map (fun i => map (fun c => Rabs (d i c)) (seq 0 3)) (seq 0 N)) (Rabs (d 0%nat 0%nat))) as [E|E].
    + exists 0%nat, 0%nat. rewrite E. repeat split; lia.
    + apply in_flat_map in E as (i & Hi & E). apply in_map_iff in E as (c & E & Hc). apply in_seq in Hi. apply in_seq in Hc. exists i, c. rewrite E. repeat split; lia.
Qed.
Lemma check_forces_spec N energy forces dx p : (1 <= N)%nat -> let '(p', ffd, f0, d) := check_forces N energy forces dx p in
  p' = p /\ f0 = forces p /\ (forall i c, (i < N)%nat -> (c < 3)%nat -> ffd i c = - central (along_axis energy p i c) (p i c) dx) /\
  (forall i c, (i < N)%nat -> (c < 3)%nat -> Rabs (ffd i c - f0 i c) <= d) /\ (exists i c, (i < N)%nat /\ (c < 3)%nat /\ d = Rabs (ffd i c - f0 i c)).
Proof.
  intros HN. unfold check_forces. pose proof (probes_spec (fun _ => energy) dx p N (forces p)) as S. destruct (fold_left _ _ _) as [p' ffd]. destruct S as (E & A & _).
  split; [exact E|]. split; [reflexivity|]. split; [exact A|]. apply (maxabs_spec N (fun i c => ffd i c - forces p i c) HN).
Qed.
Lemma check_field_spec N potential field dx p : (1 <= N)%nat -> let '(p', ffd, f0, d) := check_field N potential field dx p in
  p' = p /\ f0 = field p /\ (forall i c, (i < N)%nat -> (c < 3)%nat -> ffd i c = - central (along_axis (fun q => potential q i) p i c) (p i c) dx) /\
  (forall i c, (i < N)%nat -> (c < 3)%nat -> Rabs (ffd i c - f0 i c) <= d) /\ (exists i c, (i < N)%nat /\ (c < 3)%nat /\ d = Rabs (ffd i c - f0 i c)).
Proof.
  intros HN. unfold check_field. pose proof (probes_spec (fun i q => potential q i) dx p N (field p)) as S. destruct (fold_left _ _ _) as [p' ffd]. destruct S as (E & A & _).
  split; [exact E|]. split; [reflexivity|]. split; [exact A|]. apply (maxabs_spec N (fun i c => ffd i c - field p i c) HN).
Qed.
(** ** the error of central differences *)
Lemma nonneg_by_derivative (h dh : R -> R) T : 0 <= T -> (forall t, 0 <= t <= T -> is_derive h t (dh t)) -> 0 <= h 0 -> (forall t, 0 <= t <= T -> 0 <= dh t) -> 0 <= h T.
Proof.
  intros HT D H0 P. destruct (Req_dec T 0) as [->|N]; [exact H0|].
  destruct (MVT_gen h 0 T dh) as (c & Hc & E).
  - intros t Ht. rewrite Rmin_left, Rmax_right in Ht by lra. apply D. lra.
  - intros t Ht. rewrite Rmin_left, Rmax_right in Ht by lra. apply continuity_pt_filterlim. apply (@ex_derive_continuous R_AbsRing R_NormedModule h t). exists (dh t). apply D. lra.
  - rewrite Rmin_left, Rmax_right in Hc by lra. pose proof (P c Hc). nra.
Qed.
Lemma central_error f f1 f2 f3 x h M : 0 < h -> smooth3 f f1 f2 f3 (x - h) (x + h) -> (forall t, x - h <= t <= x + h -> Rabs (f3 t) <= M) ->
  Rabs (central f x h - f1 x) <= M * h ^ 2 / 6.
Proof.
  intros Hh S B.
  assert (Sg : forall s, s = 1 \/ s = -1 -> 0 <= M * h ^ 3 / 3 + s * (f (x + h) - f (x - h) - 2 * h * f1 x)).
  { intros s Hs.
    assert (L3 : forall t, 0 <= t <= h -> 0 <= M * 2 * t + s * (f2 (x + t) - f2 (x - t))).
    { intros T HT. apply (nonneg_by_derivative (fun t => M * 2 * t + s * (f2 (x + t) - f2 (x - t))) (fun t => M * 2 + s * (f3 (x + t) + f3 (x - t)))); [lra| |replace (x + 0) with x by ring; replace (x - 0) with x by ring; lra|].
      - intros t Ht. destruct (S (x + t)) as (_ & _ & D1); [lra|]. destruct (S (x - t)) as (_ & _ & D2); [lra|].
        apply (is_derive_plus (fun t => M * 2 * t) (fun t => s * (f2 (x + t) - f2 (x - t)))); [auto_derive; [exact I|ring]|].
        apply (is_derive_scal (fun t => f2 (x + t) - f2 (x - t))). replace (f3 (x + t) + f3 (x - t)) with (minus (1 * f3 (x + t)) (-1 * f3 (x - t))) by (unfold minus, plus, opp; cbn; ring).
        apply (is_derive_minus (fun t => f2 (x + t)) (fun t => f2 (x - t))).
        + apply (is_derive_comp f2 (fun t => x + t)); [exact D1|auto_derive; [exact I|ring]].
        + apply (is_derive_comp f2 (fun t => x - t)); [exact D2|auto_derive; [exact I|ring]].
      - intros t Ht. pose proof (B (x + t)) as B1. pose proof (B (x - t)) as B2. specialize (B1 ltac:(lra)). specialize (B2 ltac:(lra)).
        apply Rabs_le_between in B1. apply Rabs_le_between in B2. destruct Hs as [-> | ->]; lra. }
    assert (L2 : forall t, 0 <= t <= h -> 0 <= M * t ^ 2 + s * (f1 (x + t) + f1 (x - t) - 2 * f1 x)).
    { intros T HT. apply (nonneg_by_derivative (fun t => M * t ^ 2 + s * (f1 (x + t) + f1 (x - t) - 2 * f1 x)) (fun t => M * 2 * t + s * (f2 (x + t) - f2 (x - t)))); [lra| |replace (x + 0) with x by ring; replace (x - 0) with x by ring; lra|].
      - intros t Ht. destruct (S (x + t)) as (_ & D1 & _); [lra|]. destruct (S (x - t)) as (_ & D2 & _); [lra|].
        apply (is_derive_plus (fun t => M * t ^ 2) (fun t => s * (f1 (x + t) + f1 (x - t) - 2 * f1 x))); [auto_derive; [exact I|ring]|].
        apply (is_derive_scal (fun t => f1 (x + t) + f1 (x - t) - 2 * f1 x)). replace (f2 (x + t) - f2 (x - t)) with (minus (plus (1 * f2 (x + t)) (-1 * f2 (x - t))) 0) by (unfold minus, plus, opp; cbn; ring).
        apply (is_derive_minus (fun t => f1 (x + t) + f1 (x - t)) (fun t => 2 * f1 x)); [|auto_derive; [exact I|reflexivity]].
        apply (is_derive_plus (fun t => f1 (x + t)) (fun t => f1 (x - t))).
        + apply (is_derive_comp f1 (fun t => x + t)); [exact D1|auto_derive; [exact I|ring]].
        + apply (is_derive_comp f1 (fun t => x - t)); [exact D2|auto_derive; [exact I|ring]].
      - intros t Ht. apply L3. lra. }
    apply (nonneg_by_derivative (fun t => M * t ^ 3 / 3 + s * (f (x + t) - f (x - t) - 2 * t * f1 x)) (fun t => M * t ^ 2 + s * (f1 (x + t) + f1 (x - t) - 2 * f1 x))); [lra| |replace (x + 0) with x by ring; replace (x - 0) with x by ring; lra|].
    - intros t Ht. destruct (S (x + t)) as (D1 & _ & _); [lra|]. destruct (S (x - t)) as (D2 & _ & _); [lra|].
      apply (is_derive_plus (fun t => M * t ^ 3 / 3) (fun t => s * (f (x + t) - f (x - t) - 2 * t * f1 x))); [auto_derive; [exact I|field]|].
      apply (is_derive_scal (fun t => f (x + t) - f (x - t) - 2 * t * f1 x)). replace (f1 (x + t) + f1 (x - t) - 2 * f1 x) with (minus (minus (1 * f1 (x + t)) (-1 * f1 (x - t))) (2 * f1 x)) by (unfold minus, plus, opp; cbn; ring).
      apply (is_derive_minus (fun t => f (x + t) - f (x - t)) (fun t => 2 * t * f1 x)); [|auto_derive; [exact I|ring]].
      apply (is_derive_minus (fun t => f (x + t)) (fun t => f (x - t))).
      + apply (is_derive_comp f (fun t => x + t)); [exact D1|auto_derive; [exact I|ring]].
      + apply (is_derive_comp f (fun t => x - t)); [exact D2|auto_derive; [exact I|ring]].
    - intros t Ht. apply L2. lra. }
  pose proof (Sg 1 (or_introl eq_refl)) as P1. pose proof (Sg (-1) (or_intror eq_refl)) as P2.
  unfold central. set (D := f (x + h) - f (x - h)) in *.
  assert (E : D / (2 * h) - f1 x = (D - 2 * h * f1 x) * / (2 * h)) by (field; lra). rewrite E.
  apply Rabs_le_between. assert (Hi : 0 < / (2 * h)) by (apply Rinv_0_lt_compat; lra).
  assert (Q : M * h ^ 2 / 6 = M * h ^ 3 / 3 * / (2 * h)) by (field; lra). rewrite Q. split; nra.
Qed.
(** ** virial *)
Lemma strain_dot (c : mat) i j e k d : (i < 3)%nat -> (j < 3)%nat -> (d < 3)%nat -> dot3 c (put unit3 i j (unit3 i j + e)) k d = strained i j e (c k) d.
Proof.
  intros Hi Hj Hd. unfold dot3, strained, put, unit3.
  destruct i as [|[|[|i]]]; try lia; destruct j as [|[|[|j]]]; try lia; destruct d as [|[|[|d]]]; try lia; cbn [Nat.eqb andb]; ring.
Qed.
Lemma dot3_ext_r a b b' i d : (forall k, (k < 3)%nat -> b k d = b' k d) -> dot3 a b i d = dot3 a b' i d.
Proof. intros H. unfold dot3. rewrite !H by lia. reflexivity. Qed.
Lemma frac_strain frac c i j e k d : (i < 3)%nat -> (j < 3)%nat -> (d < 3)%nat -> dot3 frac (dot3 c (put unit3 i j (unit3 i j + e))) k d = strained i j e (dot3 frac c k) d.
Proof.
  intros Hi Hj Hd. rewrite (dot3_ext_r _ _ (fun k d => strained i j e (c k) d)) by (intros; apply strain_dot; assumption).
  unfold dot3, strained. destruct (d =? j)%nat; ring.
Qed.
Lemma energy_strain E frac c i j e : proper E -> (i < 3)%nat -> (j < 3)%nat ->
  E (dot3 c (put unit3 i j (unit3 i j + e))) (dot3 frac (dot3 c (put unit3 i j (unit3 i j + e)))) = strain_energy E c (dot3 frac c) i j e.
Proof.
  intros HE Hi Hj. unfold strain_energy. apply HE.
  - intros k d _ Hd. apply strain_dot; assumption.
  - intros k d Hd. apply frac_strain; assumption.
Qed.
Lemma probe_strain_spec E frac c0 de c sfd i j : proper E -> (i < 3)%nat -> (j < 3)%nat ->
  probe_strain E frac c0 de (c, sfd) (i, j) = (dot3 c0 (put unit3 i j (unit3 i j + de)), put sfd i j (central (strain_energy E c0 (dot3 frac c0) i j) 0 de)).
Proof.
  intros HE Hi Hj. unfold probe_strain. cbv zeta. f_equal. f_equal. unfold central.
  replace (unit3 i j - de) with (unit3 i j + - de) by ring. rewrite !energy_strain by assumption. rewrite Rplus_0_l, Rminus_0_l. reflexivity.
Qed.
Lemma check_virial_spec E frac c0 V0 de : proper E -> let '(c, s) := check_virial E frac c0 V0 de in
  let D (i j : nat) := central (strain_energy E c0 (dot3 frac c0) i j) 0 de in
  s = map (fun x => x / V0) [D 0%nat 0%nat; D 1%nat 1%nat; D 2%nat 2%nat; (D 1%nat 2%nat + D 2%nat 1%nat) / 2; (D 0%nat 2%nat + D 2%nat 0%nat) / 2; (D 0%nat 1%nat + D 1%nat 0%nat) / 2] /\
  same33 c (fun k => strained 2 2 de (c0 k)) /\ same3 (dot3 frac c) (fun k => strained 2 2 de (dot3 frac c0 k)).
Proof.
  intros HE. unfold check_virial.
  assert (L : flat_map (fun i => map (fun j => (i, j)) (seq 0 3)) (seq 0 3) = [(0,0);(0,1);(0,2);(1,0);(1,1);(1,2);(2,0);(2,1);(2,2)]%nat) by reflexivity.
  rewrite L. cbn [fold_left]. rewrite !probe_strain_spec by (assumption || lia). cbv zeta. split; [|split].
  - unfold put. cbn [Nat.eqb andb]. reflexivity.
  - intros k d _ Hd. apply strain_dot; lia || assumption.
  - intros k d Hd. apply frac_strain; lia || assumption.
Qed.
(** the cell is not restored *)
Lemma check_virial_refuted E frac c0 V0 de : proper E -> de <> 0 -> c0 2%nat 2%nat <> 0 -> ~ same33 (fst (check_virial E frac c0 V0 de)) c0.
Proof.
  intros HE Hd Hc S. pose proof (check_virial_spec E frac c0 V0 de HE) as P. destruct (check_virial E frac c0 V0 de) as [c s]. cbn [fst] in S. cbv zeta in P. destruct P as (_ & A & _).
  specialize (A 2%nat 2%nat ltac:(lia) ltac:(lia)). rewrite (S 2%nat 2%nat) in A by lia. unfold strained in A. cbn [Nat.eqb] in A. apply (Rmult_integral_contrapositive_currified de (c0 2%nat 2%nat) Hd Hc). lra.
Qed.
