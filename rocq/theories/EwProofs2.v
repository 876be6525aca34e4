From Coq Require Import Reals ZArith List Bool Arith Lra Lia Psatz.
From Verif Require Import Vec GeomModel GeomProofs GeomProofs3 PairProofs GamProofs4 EwModel EwSpec EwProofs.
Import ListNotations.
Open Scope R_scope.

(** ** C96 *)
Lemma shift_translation cell t : shift cell t = translation cell t.
Proof. destruct t as [[x y] z]. unfold shift, vm, mv, tr, translation, vec_of, vdot, vadd, vscale. cbn [fst snd vx vy vz row1 row2 row3]. f_equal; ring. Qed.
Lemma norm_zero_iff a b : vnorm (vsub a b) <= 0 <-> a = b.
Proof.
  split.
  - intros h. assert (E : vnorm (vsub a b) = 0) by (pose proof (vnorm_nonneg (vsub a b)); lra). pose proof (vnorm_sq (vsub a b)) as h2. rewrite E in h2. unfold vdot, vsub in h2. destruct a as [a1 a2 a3], b as [b1 b2 b3]. cbn [vx vy vz] in h2.
    assert (K : forall x y z : R, 0 = x * x + y * y + z * z -> x = 0 /\ y = 0 /\ z = 0) by (intros; repeat split; nra).
    rewrite Rmult_0_l in h2. apply K in h2. f_equal; lra.
  - intros ->. unfold vnorm, vdot, vsub. cbn [vx vy vz]. rewrite !Rminus_diag_eq by reflexivity. rewrite Rmult_0_l, !Rplus_0_r, sqrt_0. lra.
Qed.
Lemma is_zero_eq t : is_zero t = true <-> t = (0, 0, 0)%Z.
Proof.
  destruct t as [[x y] z]. unfold is_zero. cbn [fst snd]. rewrite !andb_true_iff, !Z.eqb_eq. split; [intros [[-> ->] ->]; reflexivity|intros h; inversion h; auto].
Qed.
Lemma separated_spec acc weight n cell r : separated acc weight n cell r = true <->
  forall i j t, (i < n)%nat -> (j < n)%nat -> t = (0, 0, 0)%Z \/ In t (r_range acc weight n cell) -> t <> (0, 0, 0)%Z \/ i <> j -> r i <> vadd (translation cell t) (r j).
Proof.
  unfold separated. rewrite forallb_forall. split.
  - intros h i j t hi hj ht hne. specialize (h i ltac:(apply in_seq; lia)). rewrite forallb_forall in h. specialize (h j ltac:(apply in_seq; lia)). rewrite forallb_forall in h.
    specialize (h t ltac:(destruct ht as [-> |ht]; [left; reflexivity|right; exact ht])). apply orb_true_iff in h. destruct h as [h|h].
    + apply andb_true_iff in h. destruct h as [h1 h2]. apply is_zero_eq in h1. apply Nat.eqb_eq in h2. tauto.
    + apply ltb_true in h. intros E. unfold dist in h. rewrite shift_translation in h. apply norm_zero_iff in E. lra.
  - intros h i hi. apply in_seq in hi. apply forallb_forall. intros j hj. apply in_seq in hj. apply forallb_forall. intros t ht. apply orb_true_iff.
    destruct (is_zero t && (i =? j)%nat) eqn:E; [left; reflexivity|right]. apply ltb_true. unfold dist. rewrite shift_translation. apply Rnot_le_lt. intros hc. apply norm_zero_iff in hc. revert hc.
    apply h; try lia; [destruct ht as [<- |ht]; auto|]. apply andb_false_iff in E. destruct E as [E|E].
    + left. intros ->. discriminate E.
    + right. apply Nat.eqb_neq. exact E.
Qed.
Lemma update_defined erfc acc weight n cell r q :
  update erfc acc weight n cell r q <> None <->
  forall i j t, (i < n)%nat -> (j < n)%nat -> t = (0, 0, 0)%Z \/ In t (r_range acc weight n cell) -> t <> (0, 0, 0)%Z \/ i <> j -> r i <> vadd (translation cell t) (r j).
Proof. rewrite <- separated_spec. unfold update. destruct (separated acc weight n cell r); split; intros h; congruence. Qed.
Lemma update_values erfc acc weight n cell r q phi : update erfc acc weight n cell r q = Some phi -> forall i, (i < n)%nat -> phi i = rsum n (fun j => kernel erfc acc weight n cell r i j * q j).
Proof. unfold update. destruct (separated acc weight n cell r); [|discriminate]. intros h. injection h as <-. intros i hi. apply phi_kernel. exact hi. Qed.
Lemma update_linear erfc acc weight n cell r q q' phi phi' c : update erfc acc weight n cell r q = Some phi -> update erfc acc weight n cell r q' = Some phi' ->
  exists psi, update erfc acc weight n cell r (fun i => c * q i + q' i) = Some psi /\ forall i, (i < n)%nat -> psi i = c * phi i + phi' i.
Proof.
  intros h h'. destruct (update erfc acc weight n cell r (fun i => c * q i + q' i)) as [psi|] eqn:E.
  - exists psi. split; [reflexivity|]. intros i hi. rewrite (update_values _ _ _ _ _ _ _ _ h i hi), (update_values _ _ _ _ _ _ _ _ h' i hi), (update_values _ _ _ _ _ _ _ _ E i hi).
    rewrite <- rsum_scal, <- rsum_plus. apply rsum_ext. intros j _. ring.
  - unfold update in E, h. destruct (separated acc weight n cell r); discriminate.
Qed.
Lemma update_reciprocal erfc acc weight n cell r q q' phi phi' : update erfc acc weight n cell r q = Some phi -> update erfc acc weight n cell r q' = Some phi' ->
  rsum n (fun i => q' i * phi i) = rsum n (fun i => q i * phi' i).
Proof.
  intros h h'. transitivity (rsum n (fun i => rsum n (fun j => q' i * (kernel erfc acc weight n cell r i j * q j)))).
  - apply rsum_ext. intros i hi. rewrite (update_values _ _ _ _ _ _ _ _ h i hi), rsum_scal. reflexivity.
  - rewrite rsum_swap. apply rsum_ext. intros j hj. rewrite (update_values _ _ _ _ _ _ _ _ h' j hj), <- rsum_scal. apply rsum_ext. intros i _. rewrite (kernel_sym erfc acc weight n cell r i j). ring.
Qed.
Lemma update_moved erfc acc weight n cell r q d : match update erfc acc weight n cell r q, update erfc acc weight n cell (fun i => vadd (r i) d) q with
  | Some phi, Some psi => forall i, (i < n)%nat -> psi i = phi i
  | None, None => True
  | _, _ => False
  end.
Proof.
  destruct (update erfc acc weight n cell r q) as [phi|] eqn:E, (update erfc acc weight n cell (fun i => vadd (r i) d) q) as [psi|] eqn:E'.
  - intros i hi. rewrite (update_values _ _ _ _ _ _ _ _ E i hi), (update_values _ _ _ _ _ _ _ _ E' i hi). apply rsum_ext. intros j _. rewrite moved_kernel. reflexivity.
  - unfold update in E, E'. rewrite moved_separated in E'. destruct (separated acc weight n cell r); discriminate.
  - unfold update in E, E'. rewrite moved_separated in E'. destruct (separated acc weight n cell r); discriminate.
  - exact I.
Qed.
Lemma energy_moved erfc acc weight n cell ha bo r q d : energy erfc acc weight n cell ha bo (fun i => vadd (r i) d) q = energy erfc acc weight n cell ha bo r q.
Proof.
  unfold energy. pose proof (update_moved erfc acc weight n cell r q d) as h. destruct (update erfc acc weight n cell r q) as [phi|], (update erfc acc weight n cell (fun i => vadd (r i) d) q) as [psi|]; try contradiction; [|reflexivity].
  cbn [option_map]. f_equal. f_equal. f_equal. apply rsum_ext. intros i hi. rewrite h by exact hi. reflexivity.
Qed.
(** the energy is a quadratic form: its derivative with respect to a charge is the potential there *)
Lemma energy_charge erfc acc weight n cell ha bo r q e phi k c : (k < n)%nat -> energy erfc acc weight n cell ha bo r q = Some e -> update erfc acc weight n cell r q = Some phi ->
  exists e' s, energy erfc acc weight n cell ha bo r (fun i => if (i =? k)%nat then q i + c else q i) = Some e' /\ e' = e + ha * bo * (c * phi k + s * c ^ 2).
Proof.
  intros hk he hp. set (d := fun i => if (i =? k)%nat then 1 else 0).
  assert (hd : exists w, update erfc acc weight n cell r d = Some w) by (unfold update in *; destruct (separated acc weight n cell r); [eexists; reflexivity|discriminate]).
  destruct hd as [w hw]. destruct (update_linear erfc acc weight n cell r d q w phi c hw hp) as [psi [hpsi hv]].
  assert (Eq : rsum n (fun i => q i * w i) = phi k).
  { rewrite <- (update_reciprocal erfc acc weight n cell r q d phi w hp hw). rewrite (rsum_single n k) by (try exact hk; intros i hi hne; unfold d; replace (i =? k)%nat with false by (symmetry; apply Nat.eqb_neq; lia); ring).
    unfold d. rewrite Nat.eqb_refl. ring. }
  assert (Ed : rsum n (fun i => d i * w i) = w k).
  { rewrite (rsum_single n k) by (try exact hk; intros i hi hne; unfold d; replace (i =? k)%nat with false by (symmetry; apply Nat.eqb_neq; lia); ring).
    unfold d. rewrite Nat.eqb_refl. ring. }
  assert (Ep : rsum n (fun i => d i * phi i) = phi k).
  { rewrite (rsum_single n k) by (try exact hk; intros i hi hne; unfold d; replace (i =? k)%nat with false by (symmetry; apply Nat.eqb_neq; lia); ring).
    unfold d. rewrite Nat.eqb_refl. ring. }
  assert (hq : exists u, update erfc acc weight n cell r (fun i => if (i =? k)%nat then q i + c else q i) = Some u /\ forall i, (i < n)%nat -> u i = c * w i + phi i).
  { destruct (update erfc acc weight n cell r (fun i => if (i =? k)%nat then q i + c else q i)) as [u|] eqn:Eu.
    - exists u. split; [reflexivity|]. intros i hi. rewrite <- hv by exact hi. rewrite (update_values _ _ _ _ _ _ _ _ Eu i hi), (update_values _ _ _ _ _ _ _ _ hpsi i hi). apply rsum_ext. intros j _. unfold d. destruct (j =? k)%nat; ring.
    - unfold update in Eu, hp. destruct (separated acc weight n cell r); discriminate. }
  destruct hq as [u [hu hv']]. unfold energy in *. rewrite hp in he. cbn [option_map] in he. injection he as <-. rewrite hu. cbn [option_map].
  eexists _, (w k / 2). split; [reflexivity|].
  assert (E : rsum n (fun i => (if (i =? k)%nat then q i + c else q i) * u i) = rsum n (fun i => q i * phi i) + 2 * c * phi k + c ^ 2 * w k).
  { transitivity (rsum n (fun i => q i * phi i + (c * (q i * w i) + (c * (d i * phi i) + c ^ 2 * (d i * w i))))).
    - apply rsum_ext. intros i hi. rewrite hv' by exact hi. unfold d. destruct (i =? k)%nat; ring.
    - rewrite !rsum_plus, !rsum_scal, Eq, Ed, Ep. ring. }
  rewrite E. field.
Qed.

(** ** C97: the waves of the reciprocal sum *)
Lemma det_sq m : det m ^ 2 = vdot (row1 m) (row1 m) * (vdot (row2 m) (row2 m) * vdot (row3 m) (row3 m) - vdot (row2 m) (row3 m) ^ 2)
  - vdot (row1 m) (row2 m) * (vdot (row1 m) (row2 m) * vdot (row3 m) (row3 m) - vdot (row2 m) (row3 m) * vdot (row1 m) (row3 m))
  + vdot (row1 m) (row3 m) * (vdot (row1 m) (row2 m) * vdot (row2 m) (row3 m) - vdot (row2 m) (row2 m) * vdot (row1 m) (row3 m)).
Proof. destruct m as [[u1 u2 u3] [u4 u5 u6] [u7 u8 u9]]. unfold det, vcross, vdot. cbn [vx vy vz row1 row2 row3]. ring. Qed.
Lemma wave_form a b c a' b' c' a'' b'' c'' x y z d : det (M3 (V3 a b c) (V3 a' b' c') (V3 a'' b'' c'')) = d ->
  wave (M3 (V3 a b c) (V3 a' b' c') (V3 a'' b'' c'')) (x, y, z) =
  V3 (2 * PI * / d * ((b' * c'' - c' * b'') * IZR x + (c' * a'' - a' * c'') * IZR y + (a' * b'' - b' * a'') * IZR z))
     (2 * PI * / d * ((b'' * c - c'' * b) * IZR x + (c'' * a - a'' * c) * IZR y + (a'' * b - b'' * a) * IZR z))
     (2 * PI * / d * ((b * c' - c * b') * IZR x + (c * a' - a * c') * IZR y + (a * b' - b * a') * IZR z)).
Proof. intros hd. unfold wave, vm, inverse. rewrite hd. cbv [mv tr vec_of vscale vcross vdot fst snd vx vy vz row1 row2 row3]. f_equal; ring. Qed.
Lemma wave_symmetric cell t : det cell <> 0 -> symmetric cell -> has_periods cell (wave cell t) t.
Proof.
  intros hd hs. destruct t as [[x y] z]. destruct cell as [[a b c] [a' b' c'] [a'' b'' c'']]. unfold symmetric, tr in hs. cbn [vx vy vz row1 row2 row3] in hs. injection hs as h1 h2 h3 h4 h5 h6. subst.
  remember (det _) as d eqn:E in hd. rewrite (wave_form _ _ _ _ _ _ _ _ _ x y z d (eq_sym E)). unfold det, vdot, vcross in E. cbn [vx vy vz row1 row2 row3] in E.
  unfold has_periods, vdot. cbn [fst snd vx vy vz row1 row2 row3]. repeat split; rewrite E; field; rewrite <- E; exact hd.
Qed.
Lemma wave_periodic cell t : det cell <> 0 -> symmetric cell -> periodic_wave cell (wave cell t).
Proof. intros hd hs. destruct (wave_symmetric cell t hd hs) as (h1 & h2 & h3). exists (fst (fst t)), (snd (fst t)), (snd t). auto. Qed.
Lemma norm_pos_div x y : 0 <= x -> 0 <= x / y \/ y < 0.
Proof. intros hx. destruct (Rtotal_order y 0) as [h|[-> |h]]; [right; exact h|left|left]. - unfold Rdiv. rewrite Rinv_0. lra. - apply Rle_mult_inv_pos; assumption. Qed.
Lemma bound_ge1 x y : 0 <= x -> 0 <= y -> (1 <= Int_part (x / y) + 1)%Z.
Proof.
  intros hx hy. destruct (norm_pos_div x y hx) as [h|h]; [|lra]. assert (0 <= Int_part (x / y))%Z; [|lia]. destruct (base_Int_part (x / y)) as [h1 h2].
  apply le_IZR. assert (hh : -1 < IZR (Int_part (x / y))) by lra. apply IZR_le. apply (lt_IZR (-1)) in hh. lia.
Qed.
Lemma waves_wrong acc weight n : exists cell t, det cell = 1 /\ In t (g_range acc weight n cell) /\ ~ periodic_wave cell (wave cell t).
Proof.
  exists (M3 (V3 1 0 0) (V3 (/ 2) 1 0) (V3 0 0 1)), (0, 1, 0)%Z. split; [unfold det, vdot, vcross; cbn [vx vy vz row1 row2 row3]; ring|]. split.
  - unfold g_range. cbv zeta. assert (hp := PI_RGT_0). assert (hg : 0 <= g_cutoff acc weight n (M3 (V3 1 0 0) (V3 (/ 2) 1 0) (V3 0 0 1))) by (unfold g_cutoff; pose proof (sqrt_pos (ln 10 * acc * alpha weight n (M3 (V3 1 0 0) (V3 (/ 2) 1 0) (V3 0 0 1)))); lra).
    assert (hb : forall b, 0 <= 2 * PI * vnorm b) by (intros b; pose proof (vnorm_nonneg b); nra).
    apply in_triples. cbn [fst snd]. pose proof (bound_ge1 _ _ hg (hb (row1 (tr (inverse (M3 (V3 1 0 0) (V3 (/ 2) 1 0) (V3 0 0 1))))))).
    pose proof (bound_ge1 _ _ hg (hb (row2 (tr (inverse (M3 (V3 1 0 0) (V3 (/ 2) 1 0) (V3 0 0 1))))))). pose proof (bound_ge1 _ _ hg (hb (row3 (tr (inverse (M3 (V3 1 0 0) (V3 (/ 2) 1 0) (V3 0 0 1))))))). lia.
  - intros (a & b & c & h1 & _ & _). rewrite (wave_form 1 0 0 (/ 2) 1 0 0 0 1 _ _ _ 1) in h1 by (unfold det, vdot, vcross; cbn [vx vy vz row1 row2 row3]; field).
    unfold vdot in h1. cbn [fst snd vx vy vz row1 row2 row3] in h1. assert (hp := PI_RGT_0).
    assert (h : 2 * PI * (IZR a + / 2) = 0) by (rewrite Rmult_plus_distr_l, <- h1; field). apply Rmult_integral in h. destruct h as [h|h]; [lra|].
    assert (h2 : IZR (2 * a + 1) = 0) by (rewrite plus_IZR, mult_IZR; lra). apply eq_IZR_R0 in h2. lia.
Qed.
(** an atom moved by a lattice vector feels and makes the same long-range potential *)
Lemma cos_period x (k : Z) : cos (x + 2 * PI * IZR k) = cos x.
Proof.
  destruct k as [|p|p].
  - f_equal. lra.
  - rewrite <- (positive_nat_Z p), <- INR_IZR_INZ. rewrite <- (cos_period x (Pos.to_nat p)). f_equal. ring.
  - rewrite <- Pos2Z.opp_pos, opp_IZR, <- (positive_nat_Z p), <- INR_IZR_INZ. rewrite <- (cos_period (x + 2 * PI * - INR (Pos.to_nat p)) (Pos.to_nat p)). f_equal. ring.
Qed.

(** ** C98: the cutoffs *)
Lemma ln10 : 0 < ln 10.
Proof. rewrite <- ln_1. apply ln_increasing; lra. Qed.
Lemma alpha_pos weight n cell : 0 < alpha weight n cell.
Proof. unfold alpha. apply exp_pos. Qed.
Lemma ten_power acc : Rpower 10 (- acc) = exp (- (ln 10 * acc)).
Proof. unfold Rpower. f_equal. ring. Qed.
Lemma tails acc weight n cell : 0 < acc ->
  (forall r, r_cutoff acc weight n cell < r -> exp (- (sqrt (alpha weight n cell) * r) ^ 2) < Rpower 10 (- acc)) /\
  (forall g, g_cutoff acc weight n cell < vnorm g -> exp (- vdot g g / (4 * alpha weight n cell)) < Rpower 10 (- acc)).
Proof.
  intros ha. pose proof ln10 as hl. pose proof (alpha_pos weight n cell) as hp. assert (hla : 0 < ln 10 * acc) by nra. rewrite !ten_power. split.
  - intros r hr. apply exp_increasing. unfold r_cutoff in hr.
    assert (h0 : 0 <= ln 10 * acc / alpha weight n cell) by (apply Rle_mult_inv_pos; lra).
    pose proof (sqrt_pos (ln 10 * acc / alpha weight n cell)) as hs. pose proof (sqrt_sqrt _ h0) as h1. rewrite Rpow_mult_distr, pow2_sqrt by lra.
    assert (h2 : ln 10 * acc / alpha weight n cell < r ^ 2) by nra. apply (Rmult_lt_compat_l (alpha weight n cell)) in h2; [|exact hp].
    replace (alpha weight n cell * (ln 10 * acc / alpha weight n cell)) with (ln 10 * acc) in h2 by (field; lra). lra.
  - intros g hg. apply exp_increasing. unfold g_cutoff in hg. assert (h0 : 0 <= ln 10 * acc * alpha weight n cell) by nra.
    pose proof (sqrt_pos (ln 10 * acc * alpha weight n cell)) as hs. pose proof (sqrt_sqrt _ h0) as h1. rewrite <- vnorm_sq.
    assert (h2 : 4 * alpha weight n cell * (ln 10 * acc) < vnorm g * vnorm g) by nra. apply Rmult_lt_reg_l with (4 * alpha weight n cell); [lra|].
    replace (4 * alpha weight n cell * (- (vnorm g * vnorm g) / (4 * alpha weight n cell))) with (- (vnorm g * vnorm g)) by (field; lra). lra.
Qed.
Lemma in_bound x y : Rabs (IZR x) <= y -> (- (Int_part y + 1) <= x <= Int_part y + 1)%Z.
Proof.
  intros h. destruct (base_Int_part y) as [h1 h2]. assert (h3 : IZR x < IZR (Int_part y + 1)) by (rewrite plus_IZR; pose proof (Rle_abs (IZR x)); lra).
  assert (h4 : IZR (- x) < IZR (Int_part y + 1)) by (rewrite plus_IZR, opp_IZR; pose proof (Rle_abs (- IZR x)) as h5; rewrite Rabs_Ropp in h5; lra).
  apply lt_IZR in h3, h4. lia.
Qed.
Lemma rows_nonzero m : det m <> 0 -> row1 m <> vzero /\ row2 m <> vzero /\ row3 m <> vzero.
Proof.
  intros h. destruct m as [[u1 u2 u3] [u4 u5 u6] [u7 u8 u9]]. unfold det, vdot, vcross, vzero in *. cbn [row1 row2 row3 vx vy vz] in *. repeat split; intros E; injection E as -> -> ->; apply h; ring.
Qed.
Lemma real_one a v k c : a <> vzero -> vdot v a = IZR k * vdot a a -> vnorm v <= c -> (- (Int_part (c / vnorm a) + 1) <= k <= Int_part (c / vnorm a) + 1)%Z.
Proof.
  intros ha hd hc. apply in_bound. pose proof (vnorm_pos a ha) as hp. pose proof (cauchy v a) as h. rewrite hd, <- vnorm_sq, Rabs_mult, (Rabs_right (vnorm a * vnorm a)) in h by nra.
  apply Rmult_le_reg_r with (vnorm a); [exact hp|]. replace (c / vnorm a * vnorm a) with c by (field; lra). nra.
Qed.
Lemma real_complete acc weight n cell t : det cell <> 0 -> orthogonal_cell cell -> vnorm (translation cell t) <= r_cutoff acc weight n cell -> In t (r_range acc weight n cell).
Proof.
  intros hd (h12 & h13 & h23) hv. destruct (rows_nonzero cell hd) as (n1 & n2 & n3). unfold r_range. cbv zeta. apply in_triples.
  assert (E : forall a, vdot (translation cell t) a = IZR (fst (fst t)) * vdot (row1 cell) a + IZR (snd (fst t)) * vdot (row2 cell) a + IZR (snd t) * vdot (row3 cell) a)
    by (intros a; unfold translation, vdot, vadd, vscale; cbn [vx vy vz]; ring).
  assert (C : forall a b, vdot a b = vdot b a) by (intros; unfold vdot; ring).
  split; [|split]; apply (real_one _ (translation cell t)); try assumption; rewrite E.
  - rewrite (C (row2 cell)), (C (row3 cell)), h12, h13. ring.
  - rewrite (C (row3 cell)), h12, h23. ring.
  - rewrite h13, h23. ring.
Qed.
Lemma cross_norm a b : vdot a b = 0 -> vdot (vcross a b) (vcross a b) = vdot a a * vdot b b.
Proof.
  intros h. assert (E : vdot (vcross a b) (vcross a b) = vdot a a * vdot b b - vdot a b ^ 2) by (unfold vdot, vcross; cbn [vx vy vz]; ring). rewrite E, h. ring.
Qed.
Lemma rec_norm d a b c : a <> vzero -> d <> 0 -> d ^ 2 = vdot a a * (vdot b b * vdot c c) -> vdot b c = 0 -> vnorm (vscale (/ d) (vcross b c)) = / vnorm a.
Proof.
  intros ha hd h hbc. pose proof (vnorm_pos a ha) as hp. rewrite vnorm_vscale. apply Rmult_eq_reg_r with (vnorm a); [|lra]. rewrite Rinv_l by lra.
  assert (hsq : (Rabs (/ d) * vnorm (vcross b c) * vnorm a) ^ 2 = 1).
  { replace ((Rabs (/ d) * vnorm (vcross b c) * vnorm a) ^ 2) with (Rabs (/ d) ^ 2 * (vnorm (vcross b c) * vnorm (vcross b c)) * (vnorm a * vnorm a)) by ring.
    rewrite !vnorm_sq, (cross_norm b c hbc), pow2_abs. replace ((/ d) ^ 2 * (vdot b b * vdot c c) * vdot a a) with ((/ d) ^ 2 * (vdot a a * (vdot b b * vdot c c))) by ring. rewrite <- h. field. exact hd. }
  assert (hn : 0 <= Rabs (/ d) * vnorm (vcross b c) * vnorm a) by (repeat apply Rmult_le_pos; [apply Rabs_pos|apply vnorm_nonneg|lra]). nra.
Qed.
Lemma wave_one a b g k c : 0 <= c -> a <> vzero -> vnorm b = / vnorm a -> vdot g a = 2 * PI * IZR k -> vnorm g <= c -> (- (Int_part (c / (2 * PI * vnorm b)) + 1) <= k <= Int_part (c / (2 * PI * vnorm b)) + 1)%Z.
Proof.
  intros hc ha hb hg hv. apply in_bound. pose proof (vnorm_pos a ha) as hp. pose proof PI_RGT_0 as hpi. rewrite hb. pose proof (cauchy g a) as h. rewrite hg in h.
  rewrite Rabs_mult, (Rabs_right (2 * PI)) in h by lra. apply Rmult_le_reg_l with (2 * PI); [lra|]. replace (2 * PI * (c / (2 * PI * / vnorm a))) with (c * vnorm a) by (field; lra). nra.
Qed.
Lemma tr_tr m : tr (tr m) = m.
Proof. destruct m as [[u1 u2 u3] [u4 u5 u6] [u7 u8 u9]]. reflexivity. Qed.
Lemma wave_complete acc weight n cell g t : det cell <> 0 -> orthogonal_cell cell -> has_periods cell g t -> vnorm g <= g_cutoff acc weight n cell -> In t (g_range acc weight n cell).
Proof.
  intros hd (h12 & h13 & h23) (p1 & p2 & p3) hv. destruct (rows_nonzero cell hd) as (n1 & n2 & n3). unfold g_range, inverse. cbv zeta. rewrite tr_tr. cbn [row1 row2 row3]. apply in_triples.
  assert (hc : 0 <= g_cutoff acc weight n cell) by (pose proof (vnorm_nonneg g); lra). pose proof (det_sq cell) as hs. rewrite h12, h13, h23 in hs.
  split; [|split].
  - apply (wave_one (row1 cell) _ g); try assumption. apply rec_norm; try assumption. rewrite hs. ring.
  - apply (wave_one (row2 cell) _ g); try assumption. apply rec_norm; try assumption; [rewrite hs; ring|]. rewrite <- h13. unfold vdot. ring.
  - apply (wave_one (row3 cell) _ g); try assumption. apply rec_norm; try assumption. rewrite hs. ring.
Qed.
