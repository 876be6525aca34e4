From Coq Require Import Reals ZArith List Bool Arith Lia Lra.
From Verif Require Import Vec GeomModel GeomProofs RhoModel RhoSpec RhoProofs LrModel LrSpec LrProofs.
Import ListNotations.
Open Scope R_scope.

(** ** sums *)
Lemma delta_sum n k f : (k < n)%nat -> rsum n (fun i => delta k i * f i) = f k.
Proof.
  intros h. rewrite (rsum_single n k _ h).
  - unfold delta. rewrite Nat.eqb_refl. ring.
  - intros i _ hi. unfold delta. replace (k =? i)%nat with false by (symmetry; apply Nat.eqb_neq; auto). ring.
Qed.
Lemma rsum_ge1 n f i : (forall i, (i < n)%nat -> 0 <= f i) -> (i < n)%nat -> f i <= rsum n f.
Proof.
  intros hf hi. assert (E : rsum n (fun j => delta i j * f j) <= rsum n f).
  { apply rsum_le. intros j hj. unfold delta. specialize (hf j hj). destruct (i =? j)%nat; lra. }
  rewrite delta_sum in E by exact hi. exact E.
Qed.
Lemma rsum_zero_all n f : (forall i, (i < n)%nat -> 0 <= f i) -> rsum n f = 0 -> forall i, (i < n)%nat -> f i = 0.
Proof. intros hf h i hi. pose proof (rsum_ge1 n f i hf hi). specialize (hf i hi). lra. Qed.
Lemma rsum_prod n m (f g : nat -> R) : rsum n f * rsum m g = rsum n (fun i => rsum m (fun j => f i * g j)).
Proof. rewrite <- rsum_scal_r. apply rsum_ext. intros. rewrite rsum_scal. reflexivity. Qed.
Lemma rsum_sq n f : rsum n f ^ 2 = rsum n (fun i => rsum n (fun j => f i * f j)).
Proof. replace (rsum n f ^ 2) with (rsum n f * rsum n f) by ring. apply rsum_prod. Qed.

(** orthonormal columns of a square matrix: the rows are orthonormal too *)
Lemma orthonormal_rows n V : (forall x y, (x < n)%nat -> (y < n)%nat -> rsum n (fun k => V k x * V k y) = delta x y) ->
  forall k l, (k < n)%nat -> (l < n)%nat -> rsum n (fun x => V k x * V l x) = delta k l.
Proof.
  intros h. set (G := fun k l => rsum n (fun x => V k x * V l x)).
  assert (T1 : rsum n (fun k => rsum n (fun l => delta k l * delta k l)) = INR n).
  { rewrite (rsum_ext n _ (fun _ => 1)); [rewrite rsum_const; ring|]. intros k hk. rewrite delta_sum by exact hk. unfold delta. rewrite Nat.eqb_refl. reflexivity. }
  assert (T2 : rsum n (fun k => rsum n (fun l => delta k l * G k l)) = INR n).
  { transitivity (rsum n (fun k => G k k)); [apply rsum_ext; intros; apply delta_sum; assumption|].
    unfold G. rewrite rsum_swap. rewrite (rsum_ext n _ (fun _ => 1)); [rewrite rsum_const; ring|]. intros x hx. rewrite h by exact hx. unfold delta. rewrite Nat.eqb_refl. reflexivity. }
  assert (T3 : rsum n (fun k => rsum n (fun l => G k l * G k l)) = INR n).
  { rewrite <- T1.
    transitivity (rsum n (fun k => rsum n (fun l => rsum n (fun x => rsum n (fun y => (V k x * V k y) * (V l x * V l y)))))).
    { apply rsum_ext. intros k _. apply rsum_ext. intros l _. unfold G. rewrite rsum_prod. apply rsum_ext. intros x _. apply rsum_ext. intros y _. ring. }
    transitivity (rsum n (fun k => rsum n (fun x => rsum n (fun y => (V k x * V k y) * delta x y)))).
    { apply rsum_ext. intros k _. rewrite rsum_swap. apply rsum_ext. intros x hx. rewrite rsum_swap. apply rsum_ext. intros y hy. rewrite rsum_scal, h by assumption. reflexivity. }
    rewrite rsum_swap. apply rsum_ext. intros x hx. rewrite rsum_swap. apply rsum_ext. intros y hy. rewrite rsum_scal_r, h by assumption. reflexivity. }
  assert (T : rsum n (fun k => rsum n (fun l => (delta k l - G k l) ^ 2)) = 0).
  { transitivity (rsum n (fun k => rsum n (fun l => delta k l * delta k l)) - 2 * rsum n (fun k => rsum n (fun l => delta k l * G k l)) + rsum n (fun k => rsum n (fun l => G k l * G k l))).
    - rewrite <- rsum_scal, <- rsum_minus, <- rsum_plus. apply rsum_ext. intros k _. rewrite <- rsum_scal, <- rsum_minus, <- rsum_plus. apply rsum_ext. intros l _. ring.
    - rewrite T1, T2, T3. ring. }
  intros k l hk hl.
  assert (Z : forall k, (k < n)%nat -> rsum n (fun l => (delta k l - G k l) ^ 2) = 0).
  { apply rsum_zero_all; [|exact T]. intros i _. apply rsum_nonneg. intros j _. apply pow2_ge_0. }
  assert (Z2 : (delta k l - G k l) ^ 2 = 0).
  { apply (rsum_zero_all n (fun l => (delta k l - G k l) ^ 2)); [|apply Z; exact hk|exact hl]. intros j _. apply pow2_ge_0. }
  assert (delta k l - G k l = 0) by (destruct (Req_dec (delta k l - G k l) 0) as [E|E]; [exact E|exfalso; apply (pow_nonzero _ 2 E); exact Z2]).
  fold (G k l). lra.
Qed.
Lemma parseval n V c : (forall x y, (x < n)%nat -> (y < n)%nat -> rsum n (fun k => V k x * V k y) = delta x y) ->
  rsum n (fun x => rsum n (fun k => c k * V k x) ^ 2) = rsum n (fun k => c k ^ 2).
Proof.
  intros h. pose proof (orthonormal_rows n V h) as hr.
  transitivity (rsum n (fun k => rsum n (fun l => c k * c l * rsum n (fun x => V k x * V l x)))).
  - transitivity (rsum n (fun x => rsum n (fun k => rsum n (fun l => c k * c l * (V k x * V l x))))).
    { apply rsum_ext. intros x _. rewrite rsum_sq. apply rsum_ext. intros k _. apply rsum_ext. intros l _. ring. }
    rewrite rsum_swap. apply rsum_ext. intros k _. rewrite rsum_swap. apply rsum_ext. intros l _. rewrite rsum_scal. reflexivity.
  - apply rsum_ext. intros k hk. transitivity (rsum n (fun l => delta k l * (c k * c l))).
    { apply rsum_ext. intros l hl. rewrite hr by assumption. ring. }
    rewrite delta_sum by exact hk. ring.
Qed.

(** ** the matrix *)
Section Matrix.
Variables (norb N : nat) (o1 no : nat -> nat) (e f : nat -> R) (wf Sm gamma : nat -> nat -> R) (ph : list (nat * nat)).
Hypothesis hp : proper e f ph.
Notation n := (length ph).
Notation De := (de e ph). Notation Df := (df f ph). Notation tq := (transfer_q norb o1 no wf Sm ph).
Notation Mx scc := (matrix norb N o1 no e f wf Sm scc gamma ph).
Definition amp (k : nat) : R := sqrt (Df k * De k).
Lemma de_pos k : (k < n)%nat -> 0 < De k /\ 0 < Df k.
Proof.
  intros hk. assert (hin : In (pair ph k) ph) by (apply nth_In; exact hk). unfold de, df, energy, occup.
  destruct (pair ph k) as [i j]. cbn [fst snd]. destruct (hp i j hin). lra.
Qed.
Lemma amp_sq k : (k < n)%nat -> amp k ^ 2 = Df k * De k.
Proof. intros hk. destruct (de_pos k hk). unfold amp. replace (sqrt (Df k * De k) ^ 2) with (sqrt (Df k * De k) * sqrt (Df k * De k)) by ring. apply sqrt_sqrt. apply Rlt_le, Rmult_lt_0_compat; assumption. Qed.
Lemma amp_pos k : (k < n)%nat -> 0 < amp k.
Proof. intros hk. destruct (de_pos k hk). apply sqrt_lt_R0, Rmult_lt_0_compat; assumption. Qed.
Lemma root_split k l : (k < n)%nat -> (l < n)%nat -> sqrt (Df k * De k * De l * Df l) = amp k * amp l.
Proof.
  intros hk hl. destruct (de_pos k hk), (de_pos l hl). unfold amp. rewrite <- sqrt_mult.
  - f_equal. ring.
  - apply Rlt_le, Rmult_lt_0_compat; assumption.
  - apply Rlt_le, Rmult_lt_0_compat; assumption.
Qed.
Lemma coupling_form k l : coupling norb N o1 no wf Sm gamma ph k l = rsum N (fun i => rsum N (fun j => tq k i * gamma i j * tq l j)).
Proof. unfold coupling, gamma_tq. apply rsum_ext. intros i _. rewrite <- rsum_scal. apply rsum_ext. intros. ring. Qed.
Lemma matrix_symmetric scc : symmetric N gamma -> symmetric n (Mx scc).
Proof.
  intros hg k l hk hl. unfold matrix. f_equal.
  - destruct (Nat.eqb_spec k l) as [->|hne]; [rewrite Nat.eqb_refl; reflexivity|].
    replace (l =? k)%nat with false by (symmetry; apply Nat.eqb_neq; auto). reflexivity.
  - destruct scc; [|reflexivity]. rewrite !root_split by assumption. rewrite !coupling_form.
    assert (E : rsum N (fun i => rsum N (fun j => tq k i * gamma i j * tq l j)) = rsum N (fun i => rsum N (fun j => tq l i * gamma i j * tq k j))).
    { rewrite rsum_swap. apply rsum_ext. intros i hi. apply rsum_ext. intros j hj. rewrite (hg j i hj hi). ring. }
    rewrite E. ring.
Qed.
(** without charge self-consistency the spectrum is that of the particle-hole pairs *)
Lemma plain_value v k : (k < n)%nat -> rsum n (fun j => Mx false k j * v j) = De k ^ 2 * v k.
Proof.
  intros hk. transitivity (rsum n (fun j => delta k j * (De k ^ 2 * v j))).
  - apply rsum_ext. intros j _. unfold matrix, delta. destruct (k =? j)%nat; ring.
  - apply delta_sum. exact hk.
Qed.
Lemma plain_spectrum w : (exists v, eigenvector n (Mx false) w v) <-> exists k, (k < n)%nat /\ w = De k ^ 2.
Proof.
  split.
  - intros [v [[k [hk hv]] h]]. exists k. split; [exact hk|]. specialize (h k hk). rewrite plain_value in h by exact hk.
    apply (Rmult_eq_reg_r (v k)); [symmetry; exact h|exact hv].
  - intros [k [hk ->]]. exists (delta k). split; [exists k; split; [exact hk|unfold delta; rewrite Nat.eqb_refl; lra]|].
    intros i hi. rewrite plain_value by exact hi. unfold delta. destruct (Nat.eqb_spec k i) as [->|_]; ring.
Qed.
(** quadratic form *)
Definition charge_of (v : nat -> R) (i : nat) : R := rsum n (fun k => v k * amp k * tq k i).
Lemma quadratic v : rsum n (fun k => v k * rsum n (fun l => Mx true k l * v l)) =
  rsum n (fun k => De k ^ 2 * v k ^ 2) + 2 * rsum N (fun i => rsum N (fun j => charge_of v i * gamma i j * charge_of v j)).
Proof.
  assert (E : rsum N (fun i => rsum N (fun j => charge_of v i * gamma i j * charge_of v j)) =
    rsum n (fun k => rsum n (fun l => v k * v l * (amp k * amp l) * coupling norb N o1 no wf Sm gamma ph k l))).
  { transitivity (rsum N (fun i => rsum N (fun j => rsum n (fun k => rsum n (fun l => (v k * amp k * tq k i) * gamma i j * (v l * amp l * tq l j)))))).
    { apply rsum_ext. intros i _. apply rsum_ext. intros j _. unfold charge_of.
      replace (rsum n (fun k => v k * amp k * tq k i) * gamma i j * rsum n (fun k => v k * amp k * tq k j))
        with (rsum n (fun k => v k * amp k * tq k i) * rsum n (fun k => gamma i j * (v k * amp k * tq k j))) by (rewrite rsum_scal; ring).
      rewrite rsum_prod. apply rsum_ext. intros k _. apply rsum_ext. intros l _. ring. }
    transitivity (rsum N (fun i => rsum n (fun k => rsum n (fun l => rsum N (fun j => (v k * amp k * tq k i) * gamma i j * (v l * amp l * tq l j)))))).
    { apply rsum_ext. intros i _. rewrite rsum_swap. apply rsum_ext. intros k _. apply rsum_swap. }
    rewrite rsum_swap. apply rsum_ext. intros k _. rewrite rsum_swap. apply rsum_ext. intros l _.
    rewrite coupling_form, <- rsum_scal. apply rsum_ext. intros i _. rewrite <- rsum_scal. apply rsum_ext. intros j _. ring. }
  rewrite E, <- rsum_scal, <- rsum_plus. apply rsum_ext. intros k hk. rewrite <- rsum_scal, <- rsum_scal.
  transitivity (rsum n (fun l => delta k l * (De k ^ 2 * v k * v l) + 2 * (v k * v l * (amp k * amp l) * coupling norb N o1 no wf Sm gamma ph k l))).
  - apply rsum_ext. intros l hl. unfold matrix, delta. rewrite root_split by assumption. destruct (k =? l)%nat; ring.
  - rewrite rsum_plus, delta_sum by exact hk. ring.
Qed.
Lemma eigen_form w v : eigenvector n (Mx true) w v ->
  rsum n (fun k => (w - De k ^ 2) * v k ^ 2) = 2 * rsum N (fun i => rsum N (fun j => charge_of v i * gamma i j * charge_of v j)).
Proof.
  intros [_ h]. pose proof (quadratic v) as E.
  assert (E2 : rsum n (fun k => v k * rsum n (fun l => Mx true k l * v l)) = rsum n (fun k => w * v k ^ 2)).
  { apply rsum_ext. intros k hk. rewrite h by exact hk. ring. }
  rewrite E2 in E. rewrite (rsum_ext n _ (fun k => w * v k ^ 2 - De k ^ 2 * v k ^ 2)) by (intros; ring). rewrite rsum_minus. lra.
Qed.
(** a positive semidefinite interaction raises the excitation energies *)
Lemma spectrum_bound w v : positive_semidefinite N gamma -> eigenvector n (Mx true) w v -> exists k, (k < n)%nat /\ De k ^ 2 <= w.
Proof.
  intros hg he. pose proof (eigen_form w v he) as E. destruct he as [[k0 [hk0 hv]] _]. specialize (hg (charge_of v)).
  assert (D : (exists k, (k < n)%nat /\ De k ^ 2 <= w) \/ forall k, (k < n)%nat -> w < De k ^ 2).
  { clear. induction n as [|m IH]; [right; intros; lia|]. destruct IH as [[k [h1 h2]]|h].
    - left. exists k. split; [lia|exact h2].
    - destruct (Rle_lt_dec (De m ^ 2) w) as [h'|h']; [left; exists m; split; [lia|exact h']|].
      right. intros k hk. destruct (Nat.eq_dec k m) as [->|hne]; [exact h'|apply h; lia]. }
  destruct D as [D|D]; [exact D|]. exfalso.
  assert (0 <= rsum n (fun k => (De k ^ 2 - w) * v k ^ 2)).
  { apply rsum_nonneg. intros k hk. apply Rmult_le_pos; [specialize (D k hk); lra|apply pow2_ge_0]. }
  assert (hz : rsum n (fun k => (De k ^ 2 - w) * v k ^ 2) = - rsum n (fun k => (w - De k ^ 2) * v k ^ 2)).
  { rewrite <- rsum_opp. apply rsum_ext. intros. ring. }
  assert (h0 : (De k0 ^ 2 - w) * v k0 ^ 2 = 0).
  { apply (rsum_zero_all n (fun k => (De k ^ 2 - w) * v k ^ 2)); [|lra|exact hk0].
    intros k hk. apply Rmult_le_pos; [specialize (D k hk); lra|apply pow2_ge_0]. }
  specialize (D k0 hk0). apply Rmult_integral in h0. destruct h0 as [h0|h0]; [lra|]. exact (pow_nonzero _ 2 hv h0).
Qed.
End Matrix.

(** ** the spectrum *)
Section Spectrum.
Variables (norb N : nat) (o1 no : nat -> nat) (e f : nat -> R) (wf Sm : nat -> nat -> R) (r : nat -> nat -> R) (ph : list (nat * nat)).
Variables (omega2 : nat -> R) (eigv : nat -> nat -> R).
Notation n := (length ph).
Notation F := (strength norb N o1 no e f wf Sm r ph omega2 eigv).
Notation RV := (rv norb N o1 no wf Sm r ph).
Lemma strength_value ex : 0 < omega2 ex -> F ex = 8 / 3 * rsum 3 (fun x => rsum n (fun k => RV k x * sqrt (df f ph k * de e ph k) * eigv k ex) ^ 2).
Proof.
  intros hw. unfold strength, moment.
  assert (ho : 0 < omega omega2 ex) by (apply sqrt_lt_R0; exact hw).
  assert (hs : 0 < sqrt (omega omega2 ex)) by (apply sqrt_lt_R0; exact ho).
  assert (hq : sqrt (omega omega2 ex) * sqrt (omega omega2 ex) = omega omega2 ex) by (apply sqrt_sqrt; lra).
  set (s := sqrt (omega omega2 ex)) in *. rewrite <- hq.
  set (A := fun x => rsum n (fun k => RV k x * sqrt (df f ph k * de e ph k) * eigv k ex)).
  change (s * s * rsum 3 (fun x => A x / s * 2 * (A x / s * 2)) * 2 / 3 = 8 / 3 * rsum 3 (fun x => A x ^ 2)).
  rewrite (rsum_ext 3 _ (fun x => 4 / (s * s) * A x ^ 2)) by (intros; field; lra). rewrite rsum_scal. field. lra.
Qed.
Lemma strength_nonneg ex : 0 < omega2 ex -> 0 <= F ex.
Proof. intros hw. rewrite strength_value by exact hw. apply Rmult_le_pos; [lra|]. apply rsum_nonneg. intros. apply pow2_ge_0. Qed.
Lemma sum_rule : proper e f ph -> (forall ex, (ex < n)%nat -> 0 < omega2 ex) ->
  (forall x y, (x < n)%nat -> (y < n)%nat -> rsum n (fun k => eigv k x * eigv k y) = delta x y) ->
  rsum n F = 8 / 3 * rsum n (fun k => df f ph k * de e ph k * rsum 3 (fun x => RV k x ^ 2)).
Proof.
  intros hp hw hv. transitivity (rsum n (fun ex => 8 / 3 * rsum 3 (fun x => rsum n (fun k => RV k x * sqrt (df f ph k * de e ph k) * eigv k ex) ^ 2))).
  { apply rsum_ext. intros ex hex. apply strength_value, hw, hex. }
  rewrite rsum_scal, rsum_swap. f_equal.
  transitivity (rsum 3 (fun x => rsum n (fun k => (RV k x * sqrt (df f ph k * de e ph k)) ^ 2))).
  { apply rsum_ext. intros x _. apply parseval. exact hv. }
  rewrite rsum_swap. apply rsum_ext. intros k hk. rewrite <- rsum_scal. apply rsum_ext. intros x _.
  rewrite Rpow_mult_distr. pose proof (amp_sq e f ph hp k hk) as ha. unfold amp in ha. rewrite ha. ring.
Qed.
Lemma collectivity_bounds ex : (0 < n)%nat -> rsum n (fun k => eigv k ex * eigv k ex) = 1 -> 1 <= collectivity ph eigv ex <= INR n.
Proof.
  intros hn h1. unfold collectivity.
  assert (hle : rsum n (fun k => eigv k ex ^ 4) <= 1).
  { rewrite <- h1. apply rsum_le. intros k hk.
    assert (h2 : eigv k ex * eigv k ex <= 1).
    { rewrite <- h1. apply (rsum_ge1 n (fun k => eigv k ex * eigv k ex)); [|exact hk]. intros i _. nra. }
    nra. }
  assert (hn0 : 0 < INR n) by (apply lt_0_INR; exact hn).
  assert (hge : 1 <= INR n * rsum n (fun k => eigv k ex ^ 4)).
  { assert (hq : 0 <= rsum n (fun k => (INR n * (eigv k ex * eigv k ex) - 1) ^ 2)) by (apply rsum_nonneg; intros; apply pow2_ge_0).
    assert (hq2 : rsum n (fun k => (INR n * (eigv k ex * eigv k ex) - 1) ^ 2) = INR n ^ 2 * rsum n (fun k => eigv k ex ^ 4) - 2 * INR n * rsum n (fun k => eigv k ex * eigv k ex) + INR n * 1).
    { rewrite <- !rsum_scal, <- rsum_const, <- rsum_minus, <- rsum_plus. apply rsum_ext. intros. ring. }
    rewrite h1 in hq2. rewrite hq2 in hq. nra. }
  assert (hpos : 0 < rsum n (fun k => eigv k ex ^ 4)) by nra.
  split.
  - apply (Rmult_le_reg_r (rsum n (fun k => eigv k ex ^ 4))); [exact hpos|]. unfold Rdiv. rewrite Rmult_assoc, Rinv_l by lra. lra.
  - apply (Rmult_le_reg_r (rsum n (fun k => eigv k ex ^ 4))); [exact hpos|]. unfold Rdiv. rewrite Rmult_assoc, Rinv_l by lra. lra.
Qed.
End Spectrum.
