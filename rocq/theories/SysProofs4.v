From Coq Require Import FinFun Reals ZArith Znumtheory String List Bool Arith Lia Lra Psatz.
From Verif Require Import GeomModel GeomProofs GeomProofs2 UtilModel UtilProofs SysModel SysSpec SysProofs SysProofs2 SysProofs3.
Import ListNotations.
Open Scope R_scope.

(** ** trigonometry *)
Lemma turn_eq u v : cos (2 * PI * u) = cos (2 * PI * v) -> sin (2 * PI * u) = sin (2 * PI * v) -> exists k : Z, u = v + IZR k.
Proof.
  intros Hc Hs. pose proof PI_RGT_0 as Pp.
  assert (E : cos (2 * (PI * (u - v))) = 1). { replace (2 * (PI * (u - v))) with (2 * PI * u - 2 * PI * v) by ring. rewrite cos_minus, Hc, Hs. pose proof (sin2_cos2 (2 * PI * v)) as Q. unfold Rsqr in Q. lra. }
  rewrite cos_2a_sin in E. assert (S0 : sin (PI * (u - v)) = 0) by nra. apply sin_eq_0_0 in S0. destruct S0 as [k K]. exists k. apply (Rmult_eq_reg_l PI); [|lra]. lra.
Qed.
Lemma turn_int u (k : Z) : cos (2 * PI * (u + IZR k)) = cos (2 * PI * u) /\ sin (2 * PI * (u + IZR k)) = sin (2 * PI * u).
Proof. replace (2 * PI * (u + IZR k)) with (2 * PI * u + 2 * IZR k * PI) by ring. apply sin_cos_period. Qed.
Lemma sin_le_x y : 0 <= y -> sin y <= y.
Proof. intros [H|<-]; [left; apply sin_lt_x; exact H|rewrite sin_0; lra]. Qed.
Lemma chord_above x : 2 * (1 - cos x) <= x ^ 2.
Proof.
  replace (cos x) with (cos (2 * (x / 2))) by (f_equal; field). rewrite cos_2a_sin. set (y := x / 2). replace x with (2 * y) by (unfold y; field).
  assert (S : sin y * sin y <= y * y). { destruct (Rle_dec 0 y) as [P|P].
    - assert (- y <= sin y) by (pose proof (sin_le_x y P); destruct (Rle_dec y 1); [pose proof (sin_ge_0 y P ltac:(pose proof PI_4; pose proof PI2_3_2; lra)); lra|pose proof (SIN_bound y); lra]). pose proof (sin_le_x y P). nra.
    - assert (P' : 0 <= - y) by lra. assert (- - y <= sin (- y)) by (pose proof (sin_le_x (- y) P'); destruct (Rle_dec (- y) 1); [pose proof (sin_ge_0 (- y) P' ltac:(pose proof PI_4; pose proof PI2_3_2; lra)); lra|pose proof (SIN_bound (- y)); lra]). pose proof (sin_le_x (- y) P') as L. rewrite sin_neg in *. nra. }
  nra.
Qed.
Lemma sin_cubic y : 0 <= y <= 2 -> y - y ^ 3 / 6 <= sin y.
Proof.
  intros H. pose proof PI2_3_2 as P. pose proof (pre_sin_bound y 0 ltac:(lra) ltac:(lra)) as [B _]. unfold sin_approx, sin_term in B. cbn in B. lra.
Qed.
Lemma chord_below x : x ^ 2 - x ^ 4 / 12 <= 2 * (1 - cos x).
Proof.
  assert (G : forall y, 0 <= y -> (2 * y) ^ 2 - (2 * y) ^ 4 / 12 <= 4 * (sin y * sin y)).
  { intros y Hy. destruct (Rle_dec y 2) as [L|L].
    - pose proof (sin_cubic y (conj Hy L)) as S. assert (0 <= y - y ^ 3 / 6) by (replace (y - y ^ 3 / 6) with (y * (1 - y ^ 2 / 6)) by field; apply Rmult_le_pos; nra).
      assert ((y - y ^ 3 / 6) * (y - y ^ 3 / 6) <= sin y * sin y) by (apply Rmult_le_compat; assumption). assert (0 <= (y ^ 3) * (y ^ 3)) by apply Rle_0_sqr. nra.
    - assert (0 <= sin y * sin y) by apply Rle_0_sqr. replace ((2 * y) ^ 2 - (2 * y) ^ 4 / 12) with (4 * (y * y) * (1 - y * y / 3)) by field. assert (0 <= 4 * (y * y) * (y * y / 3 - 1)); [|lra]. apply Rmult_le_pos; nra. }
  replace (cos x) with (cos (2 * (x / 2))) by (f_equal; field). rewrite cos_2a_sin. set (y := x / 2). replace x with (2 * y) by (unfold y; field).
  destruct (Rle_dec 0 y) as [P|P]; [pose proof (G y P); lra|]. pose proof (G (- y) ltac:(lra)) as K. rewrite sin_neg in K. replace (2 * - y) with (- (2 * y)) in K by ring. replace ((- (2 * y)) ^ 2) with ((2 * y) ^ 2) in K by ring. replace ((- (2 * y)) ^ 4) with ((2 * y) ^ 4) in K by ring. lra.
Qed.
(** ** distances on the cylinder *)
Lemma vdot_self_pos C : C <> vzero -> 0 < vdot C C.
Proof.
  intros H. unfold vdot. assert (vx C <> 0 \/ vy C <> 0 \/ vz C <> 0) as K.
  { destruct (Req_dec (vx C) 0), (Req_dec (vy C) 0), (Req_dec (vz C) 0); auto. exfalso. apply H. apply v3_eq; assumption. }
  pose proof (Rle_0_sqr (vx C)) as A1. pose proof (Rle_0_sqr (vy C)) as A2. pose proof (Rle_0_sqr (vz C)) as A3. unfold Rsqr in *. destruct K as [K|[K|K]]; nra.
Qed.
Lemma wrap_dist_sq C r r' : vz C = 0 -> vz r = 0 -> vz r' = 0 -> C <> vzero ->
  vdot (vsub (wrap C r) (wrap C r')) (vsub (wrap C r) (wrap C r')) =
  vdot C C / (2 * PI) ^ 2 * (2 * (1 - cos (2 * PI * (vdot (vsub r r') C / vdot C C)))) + (vdot (vsub r r') (vsub r r') - (vdot (vsub r r') C) ^ 2 / vdot C C).
Proof.
  intros HC Hr Hr' H0. pose proof (vdot_self_pos C H0) as P. pose proof PI_RGT_0 as Pp.
  assert (NS : vnorm C * vnorm C = vdot C C) by (apply sqrt_sqrt; lra). assert (Np : 0 < vnorm C) by (apply sqrt_lt_R0; exact P).
  set (u := vdot r C / vdot C C). set (v := vdot r' C / vdot C C).
  assert (E1 : 2 * PI * (vdot (vsub r r') C / vdot C C) = 2 * PI * u - 2 * PI * v). { unfold u, v, vdot, vsub. cbn [vx vy vz]. unfold vdot in P. field. lra. }
  rewrite E1, cos_minus. unfold wrap. fold u v. unfold vsub at 1 2. cbv zeta. unfold vdot at 1. cbn [vx vy vz].
  pose proof (sin2_cos2 (2 * PI * u)) as Qu. pose proof (sin2_cos2 (2 * PI * v)) as Qv. unfold Rsqr in Qu, Qv.
  set (cu := cos (2 * PI * u)) in *. set (su := sin (2 * PI * u)) in *. set (cv := cos (2 * PI * v)) in *. set (sv := sin (2 * PI * v)) in *. clearbody cu su cv sv.
  set (z := vdot r (V3 (vy C) (- vx C) 0) / vnorm C - vdot r' (V3 (vy C) (- vx C) 0) / vnorm C).
  assert (Ez : z * z = vdot (vsub r r') (vsub r r') - (vdot (vsub r r') C) ^ 2 / vdot C C).
  { apply (Rmult_eq_reg_r (vdot C C)); [|lra]. replace (z * z * vdot C C) with ((z * vnorm C) * (z * vnorm C)) by (rewrite <- NS; ring).
    replace (z * vnorm C) with (vdot r (V3 (vy C) (- vx C) 0) - vdot r' (V3 (vy C) (- vx C) 0)) by (unfold z; field; lra).
    replace ((vdot (vsub r r') (vsub r r') - vdot (vsub r r') C ^ 2 / vdot C C) * vdot C C) with (vdot (vsub r r') (vsub r r') * vdot C C - vdot (vsub r r') C ^ 2) by (field; lra).
    unfold vdot, vsub. cbn [vx vy vz]. rewrite HC, Hr, Hr'. ring. }
  rewrite <- Ez. f_equal. rewrite <- NS. replace (2 * (1 - (cu * cv + su * sv))) with ((su * su + cu * cu) + (sv * sv + cv * cv) - 2 * (cu * cv + su * sv)) by (rewrite Qu, Qv; ring). field. lra.
Qed.
(** wrapping brings atoms closer, and by little *)
Lemma wrap_chord C r r' : vz C = 0 -> vz r = 0 -> vz r' = 0 -> C <> vzero ->
  dist r r' ^ 2 * (1 - PI ^ 2 * dist r r' ^ 2 / (3 * vnorm C ^ 2)) <= dist (wrap C r) (wrap C r') ^ 2 <= dist r r' ^ 2.
Proof.
  intros HC Hr Hr' H0. pose proof (vdot_self_pos C H0) as P. pose proof PI_RGT_0 as Pp.
  assert (D : forall a b, dist a b ^ 2 = vdot (vsub a b) (vsub a b)). { intros a b. unfold dist, vnorm. rewrite <- Rsqr_pow2, Rsqr_sqrt; [reflexivity|]. unfold vdot. nra. }
  assert (NS : vnorm C ^ 2 = vdot C C) by (rewrite <- Rsqr_pow2; apply Rsqr_sqrt; lra).
  rewrite !D, NS, (wrap_dist_sq C r r' HC Hr Hr' H0). set (w := vdot (vsub r r') C). set (L := vdot C C) in *. set (s := vdot (vsub r r') (vsub r r')).
  assert (W : w ^ 2 <= s * L). { unfold w, s, L, vdot, vsub. cbn [vx vy vz]. rewrite HC, Hr, Hr'. pose proof (Rle_0_sqr ((vx r - vx r') * vy C - (vy r - vy r') * vx C)) as Q. unfold Rsqr in Q. nra. }
  assert (W0 : 0 <= w ^ 2) by apply pow2_ge_0. assert (s0 : 0 <= s) by (unfold s, vdot; nra).
  set (x := 2 * PI * (w / L)). pose proof (chord_above x) as U. pose proof (chord_below x) as B.
  assert (K : 0 < L / (2 * PI) ^ 2). { apply Rmult_lt_0_compat; [exact P|]. apply Rinv_0_lt_compat. nra. }
  assert (X2 : L / (2 * PI) ^ 2 * x ^ 2 = w ^ 2 / L) by (unfold x; field; lra).
  assert (X4 : L / (2 * PI) ^ 2 * (x ^ 4 / 12) = PI ^ 2 / (3 * L) * (w ^ 2 / L) ^ 2) by (unfold x; field; lra).
  clearbody x. split.
  - assert (L / (2 * PI) ^ 2 * (x ^ 2 - x ^ 4 / 12) <= L / (2 * PI) ^ 2 * (2 * (1 - cos x))) by (apply Rmult_le_compat_l; lra).
    assert (Y : PI ^ 2 / (3 * L) * (w ^ 2 / L) ^ 2 <= PI ^ 2 / (3 * L) * s ^ 2).
    { apply Rmult_le_compat_l; [apply Rmult_le_pos; [nra|left; apply Rinv_0_lt_compat; lra]|]. apply pow_incr. split; [apply Rmult_le_pos; [exact W0|left; apply Rinv_0_lt_compat; lra]|]. apply (Rmult_le_reg_r L); [exact P|]. replace (w ^ 2 / L * L) with (w ^ 2) by (field; lra). exact W. }
    replace (s * (1 - PI ^ 2 * s / (3 * L))) with (s - PI ^ 2 / (3 * L) * s ^ 2) by (field; lra). lra.
  - assert (L / (2 * PI) ^ 2 * (2 * (1 - cos x)) <= L / (2 * PI) ^ 2 * x ^ 2) by (apply Rmult_le_compat_l; lra). lra.
Qed.

(** ** coordinates of the lattice *)
Section Plane.
Variables (Rb : R) (e1 e2 : v3) (n m : nat).
Hypothesis HR : 0 < Rb.
Hypothesis HB : hex_basis Rb e1 e2.
Hypothesis Hnm : (1 <= n + m)%nat.
Definition pt (x y : R) : v3 := vadd (vscale x e1) (vscale y e2).
Let C := chiral_vector e1 e2 n m.
Let N := (INR n ^ 2 + INR n * INR m + INR m ^ 2).
Let D := vx e1 * vy e2 - vy e1 * vx e2.
Lemma nr_pos : 0 < N.
Proof. unfold N. pose proof (pos_INR n). pose proof (pos_INR m). pose proof (le_INR _ _ Hnm) as L. rewrite plus_INR in L. cbn [INR] in L. nra. Qed.
Lemma pt_z x y : vz (pt x y) = 0.
Proof. destruct HB as (Z1 & Z2 & _). unfold pt, vadd, vscale. cbn [vz]. rewrite Z1, Z2. ring. Qed.
Lemma C_pt : C = pt (INR n) (INR m). Proof. reflexivity. Qed.
Lemma pt_dot x y x' y' : vdot (pt x y) (pt x' y') = 3 / 2 * Rb ^ 2 * (x * (2 * x' + y') + y * (2 * y' + x')).
Proof.
  destruct HB as (_ & _ & B1 & B2 & B3). unfold pt.
  replace (vdot (vadd (vscale x e1) (vscale y e2)) (vadd (vscale x' e1) (vscale y' e2))) with (x * x' * vdot e1 e1 + (x * y' + y * x') * vdot e1 e2 + y * y' * vdot e2 e2) by (unfold vdot, vadd, vscale; cbn [vx vy vz]; ring). rewrite B1, B2, B3. field.
Qed.
Lemma C_sq : vdot C C = 3 * Rb ^ 2 * N.
Proof. rewrite C_pt, pt_dot. unfold N. field. Qed.
Lemma C_sq_pos : 0 < vdot C C.
Proof. rewrite C_sq. pose proof nr_pos. assert (0 < Rb ^ 2) by nra. apply Rmult_lt_0_compat; lra. Qed.
Lemma C_nonzero : C <> vzero.
Proof. intros E. pose proof C_sq_pos as P. rewrite E in P. unfold vdot, vzero in P. cbn [vx vy vz] in P. lra. Qed.
Lemma D_sq : D * D = 27 / 4 * Rb ^ 4.
Proof.
  destruct HB as (Z1 & Z2 & B1 & B2 & B3). unfold D. unfold vdot in B1, B2, B3. rewrite Z1 in *. rewrite Z2 in *.
  assert (E : (vx e1 * vy e2 - vy e1 * vx e2) * (vx e1 * vy e2 - vy e1 * vx e2) = (vx e1 * vx e1 + vy e1 * vy e1 + 0 * 0) * (vx e2 * vx e2 + vy e2 * vy e2 + 0 * 0) - (vx e1 * vx e2 + vy e1 * vy e2 + 0 * 0) ^ 2) by ring.
  rewrite E, B1, B2, B3. field.
Qed.
Lemma D_nonzero : D <> 0.
Proof. intros E. pose proof D_sq as S. rewrite E in S. assert (0 < Rb ^ 4) by (apply pow_lt; exact HR). lra. Qed.
Lemma pt_turn x y : vdot (pt x y) C / vdot C C = (x * (2 * INR n + INR m) + y * (2 * INR m + INR n)) / (2 * N).
Proof. pose proof nr_pos. rewrite C_sq, C_pt, pt_dot. field. split; [lra|nra]. Qed.
Lemma pt_height x y : vdot (pt x y) (V3 (vy C) (- vx C) 0) = (x * INR m - y * INR n) * D.
Proof. unfold pt, C, chiral_vector, vdot, vadd, vscale, D. cbn [vx vy vz]. ring. Qed.
Lemma norm_C_pos : 0 < vnorm C.
Proof. apply sqrt_lt_R0. exact C_sq_pos. Qed.
Lemma wrap_pt x y : wrap C (pt x y) = V3 (vnorm C / (2 * PI) * cos (2 * PI * ((x * (2 * INR n + INR m) + y * (2 * INR m + INR n)) / (2 * N))))
  (vnorm C / (2 * PI) * sin (2 * PI * ((x * (2 * INR n + INR m) + y * (2 * INR m + INR n)) / (2 * N)))) ((x * INR m - y * INR n) * D / vnorm C).
Proof. unfold wrap. cbv zeta. rewrite pt_turn, pt_height. reflexivity. Qed.
Lemma wrap_eq x y x' y' : wrap C (pt x y) = wrap C (pt x' y') <-> exists k : Z, x = x' + IZR k * INR n /\ y = y' + IZR k * INR m.
Proof.
  pose proof nr_pos as Np. pose proof norm_C_pos as Cp. pose proof PI_RGT_0 as Pp. pose proof D_nonzero as D0. rewrite !wrap_pt. split.
  - intros E. pose proof (f_equal vx E) as E1. pose proof (f_equal vy E) as E2. pose proof (f_equal vz E) as E3. cbn [vx vy vz] in E1, E2, E3.
    assert (K0 : vnorm C / (2 * PI) <> 0). { apply Rgt_not_eq. apply Rmult_lt_0_compat; [exact Cp|]. apply Rinv_0_lt_compat. lra. }
    apply Rmult_eq_reg_l in E1, E2; try exact K0. destruct (turn_eq _ _ E1 E2) as [k K]. exists k.
    assert (E3' : x * INR m - y * INR n = x' * INR m - y' * INR n). { apply (Rmult_eq_reg_r (D / vnorm C)); [unfold Rdiv in *; lra|]. unfold Rdiv. apply Rmult_integral_contrapositive_currified; [exact D0|]. apply Rinv_neq_0_compat. lra. }
    assert (K' : (x - x') * (2 * INR n + INR m) + (y - y') * (2 * INR m + INR n) = 2 * N * IZR k).
    { apply (Rmult_eq_reg_r (/ (2 * N))); [|apply Rinv_neq_0_compat; lra]. replace (2 * N * IZR k * / (2 * N)) with (IZR k) by (field; lra). unfold Rdiv in K. lra. }
    split; apply (Rmult_eq_reg_l (2 * N)); try lra.
    + assert (X : 2 * N * (x - x') = INR n * ((x - x') * (2 * INR n + INR m) + (y - y') * (2 * INR m + INR n)) + (2 * INR m + INR n) * ((x - x') * INR m - (y - y') * INR n)) by (unfold N; ring). rewrite K' in X.
      replace ((x - x') * INR m - (y - y') * INR n) with 0 in X by lra. lra.
    + assert (X : 2 * N * (y - y') = INR m * ((x - x') * (2 * INR n + INR m) + (y - y') * (2 * INR m + INR n)) - (2 * INR n + INR m) * ((x - x') * INR m - (y - y') * INR n)) by (unfold N; ring). rewrite K' in X.
      replace ((x - x') * INR m - (y - y') * INR n) with 0 in X by lra. lra.
  - intros (k & -> & ->).
    assert (T : ((x' + IZR k * INR n) * (2 * INR n + INR m) + (y' + IZR k * INR m) * (2 * INR m + INR n)) / (2 * N) = (x' * (2 * INR n + INR m) + y' * (2 * INR m + INR n)) / (2 * N) + IZR k).
    { replace ((x' + IZR k * INR n) * (2 * INR n + INR m) + (y' + IZR k * INR m) * (2 * INR m + INR n)) with (x' * (2 * INR n + INR m) + y' * (2 * INR m + INR n) + IZR k * (2 * N)) by (unfold N; ring). field. lra. }
    rewrite T.
    destruct (turn_int ((x' * (2 * INR n + INR m) + y' * (2 * INR m + INR n)) / (2 * N)) k) as [-> ->]. apply v3_eq; cbn [vx vy vz]; [reflexivity|reflexivity|]. unfold Rdiv. ring.
Qed.
(** moving by a lattice vector is a screw *)
Lemma wrap_add x y x' y' : wrap C (pt (x + x') (y + y')) =
  vadd (mv (rotz (2 * PI * ((x' * (2 * INR n + INR m) + y' * (2 * INR m + INR n)) / (2 * N)))) (wrap C (pt x y))) (V3 0 0 ((x' * INR m - y' * INR n) * D / vnorm C)).
Proof.
  pose proof nr_pos as Np. rewrite !wrap_pt. set (u := (x * (2 * INR n + INR m) + y * (2 * INR m + INR n)) / (2 * N)). set (w := (x' * (2 * INR n + INR m) + y' * (2 * INR m + INR n)) / (2 * N)).
  replace (((x + x') * (2 * INR n + INR m) + (y + y') * (2 * INR m + INR n)) / (2 * N)) with (u + w) by (unfold u, w; field; lra).
  rewrite Rmult_plus_distr_l, cos_plus, sin_plus. unfold vadd, mv, rotz, vdot. cbn [row1 row2 row3 vx vy vz]. apply v3_eq; cbn [vx vy vz]; unfold Rdiv; ring.
Qed.
Lemma site_pt o1 o2 P Q b : hex_site e1 e2 (pt o1 o2) P Q b = pt (o1 + IZR P + (if b : bool then 1 / 3 else 0)) (o2 + IZR Q + (if b then 1 / 3 else 0)).
Proof. destruct b; unfold hex_site, pt, vadd, vscale, vzero; apply v3_eq; cbn [vx vy vz]; ring. Qed.
End Plane.
