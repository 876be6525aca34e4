From Coq Require Import Reals ZArith List Bool Arith Lia Lra.
From Verif Require Import Vec GeomModel GeomSpec GeomProofs CoulModel CoulProofs MixModel OccModel PairModel PairSpec SkModel SkSpec Cpx RhoModel RhoSpec EigModel EigSpec InvModel InvSpec InvLin InvProofs10 GamModel GamSpec GamProofs GamProofs3 FrcSpec FrcProofs FrcProofs2 FrcProofs8 FoldSpec FoldProofs11 NetSpec NetProofs7 GndSpec GndProofs4 GndProofs5 GndProofs10 GndProofs11.
Import ListNotations.
Open Scope R_scope.

Lemma ln2_pos : 0 < ln 2.
Proof. rewrite <- ln_1. apply ln_increasing; lra. Qed.
(** the widths of gauss_const *)
Lemma const_inv fi fj : 0 < fi -> 0 < fj -> / sqrt (fi ^ 2 / (4 * ln 2) + fj ^ 2 / (4 * ln 2)) = gauss_const fi fj.
Proof.
  intros Hi Hj. pose proof ln2_pos as L. unfold gauss_const. assert (P : 0 < fi ^ 2 + fj ^ 2) by nra.
  assert (Q : 0 < ln 2 / (fi ^ 2 + fj ^ 2)) by (apply Rdiv_lt_0_compat; lra).
  assert (E2 : 2 * sqrt (ln 2 / (fi ^ 2 + fj ^ 2)) = sqrt (2 ^ 2 * (ln 2 / (fi ^ 2 + fj ^ 2)))) by (rewrite sqrt_mult_alt by lra; rewrite sqrt_pow2 by lra; reflexivity).
  rewrite E2. rewrite <- sqrt_inv. f_equal. field. lra.
Qed.
Lemma const_le f0 f : 0 < f0 -> f0 <= f -> gauss_const f f <= gauss_const f0 f0.
Proof.
  intros H0 H. pose proof ln2_pos as L. unfold gauss_const. apply Rmult_le_compat_l; [lra|]. apply sqrt_le_1_alt. apply Rmult_le_compat_l; [lra|]. apply Rinv_le_contravar; nra.
Qed.
Section Molecule.
Context (erfc : R -> R) (He : is_erfc erfc) (Bohr Hartree goal width sepsilon : R) (HB : 0 < Bohr) (D : database) (g : structure) (M : molecule g) (WE : wide_enough D g).
Context (X : system) (EX : assemble erfc Bohr Hartree true None goal width sepsilon true D g = Some X).
Let F I := d_FWHM D (g_kind g I).
Let U I := d_U D (g_kind g I).
Let rho I := vscale (/ Bohr) (g_r g I).
Let dd I J := vnorm (vsub (rho I) (rho J)).
Lemma default_pos u : 0 < u -> 0 < default_FWHM u.
Proof. intros Hu. unfold default_FWHM. apply Rdiv_lt_0_compat; [|exact Hu]. apply sqrt_lt_R0. apply Rdiv_lt_0_compat; [pose proof ln2_pos; lra|apply PI_RGT_0]. Qed.
Lemma F_pos I : (I < g_N g)%nat -> 0 < F I.
Proof. intros HI. destruct (WE I HI) as [A B]. pose proof (default_pos _ A). unfold F. lra. Qed.
Lemma drv_origin I J : drv (g_r g) (g_tr0 g) (g_rot g) (0, 0, 0)%Z I J = vsub (g_r g I) (g_r g J).
Proof. unfold drv, image. rewrite (b_rot _ M), (b_tr0 _ M), mv_eye. apply v3_eq; vunf; ring. Qed.
Lemma apart I J : (I < g_N g)%nat -> (J < g_N g)%nat -> I <> J -> 0 < dd I J.
Proof.
  intros HI HJ Ne. pose proof (m_close _ _ _ _ _ _ _ _ _ _ _ _ (assembled_fields _ _ _ _ _ _ _ _ _ _ _ _ EX)) as C. apply too_close_tested in C.
  assert (K : forall i j, (i < g_N g)%nat -> (j < g_N g)%nat -> (i < j)%nat -> 0 < dd j i).
  { intros i j Hi Hj L. specialize (C i j 0%nat Hi Hj ltac:(rewrite (b_nimg _ M); lia) ltac:(lia)). apply orb_true_iff in C. destruct C as [C|C].
    - unfold self_pair in C. apply andb_true_iff in C. destruct C as [C _]. apply Nat.eqb_eq in C. lia.
    - apply ltb_true in C. unfold mdist, mrij, g_Rn in C. rewrite (b_O _ M), (b_t _ M), !mv_eye in C. unfold dd, rho. replace (vsub (vscale (/ Bohr) (g_r g j)) (vscale (/ Bohr) (g_r g i))) with (vsub (vscale (/ Bohr) (vadd (g_r g j) vzero)) (vscale (/ Bohr) (vadd (g_r g i) vzero))) by (apply v3_eq; vunf; ring). lra. }
  destruct (Nat.lt_trichotomy I J) as [L|[L|L]]; [|contradiction|apply K; assumption].
  unfold dd. replace (vnorm (vsub (rho I) (rho J))) with (vnorm (vsub (rho J) (rho I))) by (unfold vnorm; f_equal; vunf; ring). apply K; assumption.
Qed.
Lemma dd_bohr I J : vnorm (vsub (g_r g I) (g_r g J)) / Bohr = dd I J.
Proof.
  unfold dd, rho, vnorm. replace (vdot (vsub (vscale (/ Bohr) (g_r g I)) (vscale (/ Bohr) (g_r g J))) (vsub (vscale (/ Bohr) (g_r g I)) (vscale (/ Bohr) (g_r g J)))) with ((/ Bohr) ^ 2 * vdot (vsub (g_r g I) (g_r g J)) (vsub (g_r g I) (g_r g J))) by (vunf; ring).
  rewrite sqrt_mult_alt by apply pow2_ge_0. rewrite sqrt_pow2 by (left; apply Rinv_0_lt_compat; exact HB). unfold Rdiv. ring.
Qed.
Let K I J := if (I =? J)%nat then U I else (1 - erfc (gauss_const (F I) (F J) * dd I J)) / dd I J.
Lemma one_cell B V term I J : (I < g_N g)%nat -> (J < g_N g)%nat ->
  gamma_G B V term (flat_map (cell_neighbours (g_N g) (g_r g) (g_tr0 g) (g_rot g) None) [(0, 0, 0)%Z]) I J = if (I =? J)%nat then V I else fst (term I J (vnorm (vsub (g_r g I) (g_r g J)) / B)).
Proof.
  intros HI HJ. rewrite G_value by assumption. cbn [GamSpec.lsum]. destruct (Nat.eqb_spec I J) as [->|Ne].
  - assert (E : mask (g_r g) (g_tr0 g) (g_rot g) None (0, 0, 0)%Z J J = false). { apply not_true_is_false. intros E. apply mask_iff in E. unfold origin_cell in E. tauto. } rewrite E. ring.
  - assert (E : mask (g_r g) (g_tr0 g) (g_rot g) None (0, 0, 0)%Z I J = true). { apply mask_iff. tauto. } rewrite E, drv_origin. ring.
Qed.
Lemma potential q I : (I < g_N g)%nat -> epsilon (s_N X) (s_G X) (s_phi X q) q I = rsum (g_N g) (fun J => K I J * q J).
Proof.
  intros HI. pose proof (assembled_fields _ _ _ _ _ _ _ _ _ _ _ _ EX) as FX. pose proof (m_N _ _ _ _ _ _ _ _ _ _ _ _ FX) as EN.
  destruct (m_scc _ _ _ _ _ _ _ _ _ _ _ _ FX eq_refl) as (G & dG & l & EG & El & EGs & _ & EP & _).
  destruct (neighbours_of _ _ _ _ _ _ _ El) as (cs & Es & Ell). pose proof (molecule_scan g None cs M Es) as Ec. subst cs.
  assert (EGG : G = gamma_G Bohr U (terms erfc true D g) (flat_map (cell_neighbours (g_N g) (g_r g) (g_tr0 g) (g_rot g) None) [(0, 0, 0)%Z])).
  { pose proof EG as EG'. rewrite (g_gamma_at _ _ _ _ _ _ _ _ Es) in EG'. unfold FoldProofs9.nbs in EG'. cbn [andb] in EG'. destruct (leb _ _); [discriminate|]. destruct (existsb _ _); [discriminate|]. injection EG' as E1 _. symmetry. exact E1. }
  unfold epsilon. rewrite EN, EP, (direct_phi_gamma erfc None _ _ _ _ _ l q I El), <- rsum_scal_r, <- rsum_plus. apply rsum_ext. intros J HJ.
  rewrite EGs, EGG, gamma_is, Ell, !one_cell by assumption. unfold K, terms, dterm, gauss_term, direct_f. cbv zeta. cbn [fst].
  destruct (Nat.eqb_spec I J) as [->|Ne]; [ring|]. rewrite (dd_bohr I J). pose proof (apart I J HI HJ Ne) as P. unfold F. rewrite <- (dd_bohr I J) in P.
  assert (PD : 0 < vnorm (vsub (g_r g I) (g_r g J))). { replace (vnorm (vsub (g_r g I) (g_r g J))) with (vnorm (vsub (g_r g I) (g_r g J)) / Bohr * Bohr) by (field; lra). apply Rmult_lt_0_compat; assumption. }
  rewrite <- !(dd_bohr I J). replace (vnorm (vsub (g_r g I) (g_r g J)) / 1) with (vnorm (vsub (g_r g I) (g_r g J))) by field. field. lra.
Qed.
Lemma K_margin kappa : (forall I, (I < g_N g)%nat -> kappa <= U I - 2 / sqrt PI * gauss_const (F I) (F I)) -> forall q, kappa * rsum (g_N g) (fun i => q i * q i) <= rsum (g_N g) (fun i => rsum (g_N g) (fun j => q i * K i j * q j)).
Proof.
  intros HK.
  pose proof (positive_kernel erfc He (g_N g) (fun I => F I ^ 2 / (4 * ln 2)) rho) as P. cbv beta in P.
  assert (Ha : forall i, (i < g_N g)%nat -> 0 < F i ^ 2 / (4 * ln 2)). { intros i Hi. pose proof (F_pos i Hi). pose proof ln2_pos. apply Rdiv_lt_0_compat; [apply pow_lt; assumption|lra]. }
  specialize (P Ha). pose proof (root_pi) as SP. pose proof (proj1 He) as E0.
  intros q. specialize (P q). set (k0 := fun i j => gauss_potential erfc (F i ^ 2 / (4 * ln 2) + F j ^ 2 / (4 * ln 2)) (vnorm (vsub (rho i) (rho j)))) in P.
  assert (KE : forall i j, (i < g_N g)%nat -> (j < g_N g)%nat -> K i j = 2 / sqrt PI * k0 i j + (if (i =? j)%nat then U i - 2 / sqrt PI * gauss_const (F i) (F i) else 0)).
  { intros i j Hi Hj. unfold K, k0, gauss_potential. rewrite (const_inv (F i) (F j)) by (apply F_pos; assumption). destruct (Nat.eqb_spec i j) as [<-|Ne].
    - destruct (Req_EM_T _ 0) as [_|N]; [ring|]. exfalso. apply N. unfold vnorm. replace (vdot _ _) with 0 by (vunf; ring). apply sqrt_0.
    - pose proof (apart i j Hi Hj Ne) as A. unfold dd in A. destruct (Req_EM_T _ 0) as [N|_]; [lra|]. unfold prim, dd. rewrite E0, (Rmult_comm (vnorm _) (gauss_const _ _)). field. lra. }
  assert (S : rsum (g_N g) (fun i => rsum (g_N g) (fun j => q i * K i j * q j)) = 2 / sqrt PI * rsum (g_N g) (fun i => rsum (g_N g) (fun j => q i * k0 i j * q j)) + rsum (g_N g) (fun i => q i * q i * (U i - 2 / sqrt PI * gauss_const (F i) (F i)))).
  { rewrite <- rsum_scal, <- rsum_plus. apply rsum_ext. intros i Hi. rewrite <- rsum_scal.
    rewrite (rsum_ext _ (fun j => q i * K i j * q j) (fun j => 2 / sqrt PI * (q i * k0 i j * q j) + (if (i =? j)%nat then q i * q i * (U i - 2 / sqrt PI * gauss_const (F i) (F i)) else 0))).
    - rewrite rsum_plus. f_equal. rewrite (rsum_single _ i _ Hi) by (intros j _ Hj; rewrite (proj2 (Nat.eqb_neq i j) (fun e => Hj (eq_sym e))); reflexivity). rewrite Nat.eqb_refl. reflexivity.
    - intros j Hj. rewrite (KE i j Hi Hj). destruct (Nat.eqb_spec i j) as [<-|]; ring. }
  rewrite S. assert (P2 : 0 <= 2 / sqrt PI * rsum (g_N g) (fun i => rsum (g_N g) (fun j => q i * k0 i j * q j))) by (apply Rmult_le_pos; [left; apply Rdiv_lt_0_compat; lra|exact P]).
  assert (P3 : kappa * rsum (g_N g) (fun i => q i * q i) <= rsum (g_N g) (fun i => q i * q i * (U i - 2 / sqrt PI * gauss_const (F i) (F i)))).
  { rewrite <- rsum_scal. apply rsum_le. intros i Hi. rewrite (Rmult_comm kappa). apply Rmult_le_compat_l; [nra|apply HK; exact Hi]. }
  lra.
Qed.
Lemma self_energy I : (I < g_N g)%nat -> 0 <= U I - 2 / sqrt PI * gauss_const (F I) (F I).
Proof.
  intros Hi. pose proof root_pi as SP. destruct (WE I Hi) as [HU HF]. pose proof (gauss_onsite _ HU) as O. fold (U I) in O, HF, HU. fold (F I) in HF. pose proof (const_le _ _ (default_pos _ HU) HF) as C.
  assert (2 / sqrt PI * gauss_const (F I) (F I) <= 2 / sqrt PI * gauss_const (default_FWHM (U I)) (default_FWHM (U I))) by (apply Rmult_le_compat_l; [left; apply Rdiv_lt_0_compat; lra|exact C]). lra.
Qed.
Lemma K_positive : psd (g_N g) K.
Proof. intros q. pose proof (K_margin 0 self_energy q). lra. Qed.
Lemma energy_K q : 2 * energy_of_charges X q = rsum (g_N g) (fun i => rsum (g_N g) (fun j => q i * K i j * q j)).
Proof.
  pose proof (m_N _ _ _ _ _ _ _ _ _ _ _ _ (assembled_fields _ _ _ _ _ _ _ _ _ _ _ _ EX)) as EN. unfold energy_of_charges, coulomb_energy. rewrite EN at 1. rewrite <- Rmult_assoc, Rinv_r, Rmult_1_l by lra.
  apply rsum_ext. intros I HI. rewrite (potential q I HI), <- rsum_scal. apply rsum_ext. intros; ring.
Qed.
Lemma charges_cost q : 0 <= energy_of_charges X q.
Proof. pose proof (energy_K q). pose proof (K_positive q). lra. Qed.
Lemma charges_cost_more kappa q : (forall I, (I < g_N g)%nat -> kappa + 2 / sqrt PI * gauss_const (d_FWHM D (g_kind g I)) (d_FWHM D (g_kind g I)) <= d_U D (g_kind g I)) ->
  kappa * rsum (g_N g) (fun i => q i * q i) <= 2 * energy_of_charges X q.
Proof. intros H. rewrite energy_K. apply K_margin. intros I HI. specialize (H I HI). unfold U, F. lra. Qed.
End Molecule.
Lemma interaction_energy X K q : interacts_by X K -> energy_of_charges X q = coulomb_of (s_N X) K q.
Proof.
  intros [P _]. unfold energy_of_charges, coulomb_energy, coulomb_of. f_equal. apply rsum_ext. intros I HI. rewrite (P q I HI), <- rsum_scal. apply rsum_ext. intros; ring.
Qed.
Lemma molecules_cost erfc Bohr Hartree goal width sepsilon D g X K : is_erfc erfc -> 0 < Bohr -> molecule g -> wide_enough D g ->
  assemble erfc Bohr Hartree true None goal width sepsilon true D g = Some X -> interacts_by X K -> costs (s_N X) K.
Proof. intros He HB M WE EX IK q _. rewrite <- (interaction_energy X K q IK). exact (charges_cost erfc He Bohr Hartree goal width sepsilon HB D g M WE X EX q). Qed.
Lemma molecules_cost_more erfc Bohr Hartree goal width sepsilon D g X K kappa : is_erfc erfc -> 0 < Bohr -> molecule g -> wide_enough D g ->
  assemble erfc Bohr Hartree true None goal width sepsilon true D g = Some X -> interacts_by X K ->
  (forall I, (I < g_N g)%nat -> kappa + 2 / sqrt PI * gauss_const (d_FWHM D (g_kind g I)) (d_FWHM D (g_kind g I)) <= d_U D (g_kind g I)) -> costs_at_least (s_N X) K kappa.
Proof.
  intros He HB M WE EX IK HK q _. rewrite <- (interaction_energy X K q IK). rewrite (m_N _ _ _ _ _ _ _ _ _ _ _ _ (assembled_fields _ _ _ _ _ _ _ _ _ _ _ _ EX)).
  exact (charges_cost_more erfc He Bohr Hartree goal width sepsilon HB D g M WE X EX kappa q HK).
Qed.
(** ** distances between charges of two calculations *)
Lemma square_sum n f : rsum n f * rsum n f <= INR n * rsum n (fun i => f i * f i).
Proof.
  induction n as [|n IH]; [cbn; lra|]. rewrite S_INR. cbn [rsum]. set (A := rsum n f) in *. set (Q := rsum n (fun i => f i * f i)) in *. set (x := f n).
  assert (HQ : 0 <= Q) by (apply rsum_nonneg; intros; nra). pose proof (pos_INR n) as Hn.
  assert (M : 2 * (A * x) <= Q + INR n * (x * x)).
  { destruct (Nat.eq_dec n 0) as [E|E].
    - assert (A0 : A = 0) by (unfold A; rewrite E; reflexivity). rewrite A0. pose proof (Rmult_le_pos _ _ Hn (Rle_0_sqr x)) as B. unfold Rsqr in B. lra.
    - assert (N1 : 0 < INR n) by (apply lt_0_INR; lia). generalize dependent (INR n). intros t IH _ N1. apply (Rmult_le_reg_l t); [exact N1|]. pose proof (Rle_0_sqr (A - t * x)) as B. unfold Rsqr in B. lra. }
  lra.
Qed.
Lemma close_charges N K kappa L e d : 0 < kappa -> 0 <= e -> (forall I, (I < N)%nat -> rsum N (fun J => Rabs (K I J)) <= L) -> costs_at_least N K kappa -> rsum N d = 0 ->
  2 * coulomb_of N K d <= e * interaction_size N K d -> rsum N (fun I => Rabs (d I)) <= INR N * e * L / kappa.
Proof.
  intros Hk Hee HL Cs Z H. specialize (Cs d Z). set (A := rsum N (fun I => Rabs (d I))). assert (HA : 0 <= A) by (apply rsum_nonneg; intros; apply Rabs_pos).
  assert (SZ : interaction_size N K d <= L * A). { unfold interaction_size, A. rewrite <- rsum_scal. apply rsum_le. intros I HI. rewrite (Rmult_comm L). apply Rmult_le_compat_l; [apply Rabs_pos|apply HL; exact HI]. }
  pose proof (square_sum N (fun I => Rabs (d I))) as SQ. cbv beta in SQ. fold A in SQ. rewrite (rsum_ext N (fun i => Rabs (d i) * Rabs (d i)) (fun i => d i * d i)) in SQ by (intros; rewrite <- Rabs_mult; apply Rabs_right; nra).
  set (Q := rsum N (fun i => d i * d i)) in *. pose proof (pos_INR N) as HN. assert (HQ : kappa * Q <= e * (L * A)) by (assert (e * interaction_size N K d <= e * (L * A)) by (apply Rmult_le_compat_l; assumption); lra).
  destruct (Req_EM_T A 0) as [E|E].
  - rewrite E. destruct N as [|N]; [cbn; unfold Rdiv; rewrite !Rmult_0_l; lra|]. assert (0 <= L). { eapply Rle_trans; [|apply (HL 0%nat); lia]. apply rsum_nonneg. intros; apply Rabs_pos. } apply Rmult_le_pos; [|left; apply Rinv_0_lt_compat; exact Hk]. repeat apply Rmult_le_pos; assumption.
  - apply (Rmult_le_reg_r (kappa * A)); [apply Rmult_lt_0_compat; lra|]. replace (INR N * e * L / kappa * (kappa * A)) with (INR N * (e * (L * A))) by (field; lra).
    apply Rle_trans with (kappa * (INR N * Q)); [replace (A * (kappa * A)) with (kappa * (A * A)) by ring; apply Rmult_le_compat_l; lra|]. replace (kappa * (INR N * Q)) with (INR N * (kappa * Q)) by ring. apply Rmult_le_compat_l; lra.
Qed.
