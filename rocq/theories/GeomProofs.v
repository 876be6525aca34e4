(** Rotation matrices and polar angles. *)
From Coq Require Import Reals Lra Lia ZArith List Bool.
From Verif Require Import GeomModel GeomSpec.
Import ListNotations.
Open Scope R_scope.

Lemma v3_eq a b : vx a = vx b -> vy a = vy b -> vz a = vz b -> a = b.
Proof. destruct a, b; simpl; intros; subst; reflexivity. Qed.

Lemma m3_eq a b : row1 a = row1 b -> row2 a = row2 b -> row3 a = row3 b -> a = b.
Proof. destruct a, b; simpl; intros; subst; reflexivity. Qed.

Ltac vunf := unfold mm, mv, tr, det, eye, vdot, vadd, vsub, vscale, vcross, vzero in *;
  cbn [vx vy vz row1 row2 row3] in *.
Ltac vring := vunf; try apply v3_eq; try apply m3_eq; cbn [vx vy vz row1 row2 row3];
  try (apply v3_eq; cbn [vx vy vz]); ring.

Lemma mv_mm a b r : mv (mm a b) r = mv a (mv b r).
Proof. vunf. apply v3_eq; cbn; ring. Qed.
Lemma mm_assoc a b c : mm (mm a b) c = mm a (mm b c).
Proof. vunf. apply m3_eq; apply v3_eq; cbn; ring. Qed.
Lemma mm_eye_l a : mm eye a = a.
Proof. vunf. apply m3_eq; apply v3_eq; cbn; ring. Qed.
Lemma mm_eye_r a : mm a eye = a.
Proof. vunf. apply m3_eq; apply v3_eq; cbn; ring. Qed.
Lemma mv_eye r : mv eye r = r.
Proof. vunf. apply v3_eq; cbn; ring. Qed.
Lemma tr_mm a b : tr (mm a b) = mm (tr b) (tr a).
Proof. vunf. apply m3_eq; apply v3_eq; cbn; ring. Qed.
Lemma det_mm a b : det (mm a b) = det a * det b.
Proof. vunf. ring. Qed.
Lemma mv_vsub m r s : mv m (vsub r s) = vsub (mv m r) (mv m s).
Proof. vunf. apply v3_eq; cbn; ring. Qed.
Lemma vdot_mv m r s : vdot (mv m r) s = vdot r (mv (tr m) s).
Proof. vunf. ring. Qed.

Lemma orth_norm m r : is_orthogonal m -> vnorm (mv m r) = vnorm r.
Proof.
  unfold is_orthogonal, vnorm. intros H. f_equal.
  rewrite vdot_mv, <- mv_mm, H, mv_eye. reflexivity.
Qed.

Lemma is_rotation_mm a b : is_rotation a -> is_rotation b -> is_rotation (mm a b).
Proof.
  intros (A1 & A2 & A3) (B1 & B2 & B3). split; [|split].
  - rewrite tr_mm, mm_assoc, <- (mm_assoc (tr a)), A1, mm_eye_l. exact B1.
  - rewrite tr_mm, mm_assoc, <- (mm_assoc b), B2, mm_eye_l. exact A2.
  - rewrite det_mm, A3, B3. ring.
Qed.

Lemma is_rotation_eye : is_rotation eye.
Proof. repeat split; vunf; try ring; apply m3_eq; apply v3_eq; cbn; ring. Qed.

Lemma sincos t : sin t * sin t + cos t * cos t = 1.
Proof. pose proof (sin2_cos2 t) as H. unfold Rsqr in H. exact H. Qed.

(** ** rotation_matrix *)
(** the matrix for a unit axis *)
Definition rotm (n : v3) (t : R) : m3 :=
  let n1 := vx n in let n2 := vy n in let n3 := vz n in
  let c := cos t in let s := sin t in
  let cc := 1 - c in
  M3 (V3 (n1^2*cc + c) (n1*n2*cc - n3*s) (n1*n3*cc + n2*s))
     (V3 (n1*n2*cc + n3*s) (n2^2*cc + c) (n2*n3*cc - n1*s))
     (V3 (n1*n3*cc - n2*s) (n2*n3*cc + n1*s) (n3^2*cc + c)).

Lemma vnorm_pos a : a <> vzero -> 0 < vnorm a.
Proof.
  intros H. unfold vnorm. apply sqrt_lt_R0. destruct a as [x y z]. unfold vdot. cbn.
  destruct (Req_dec x 0) as [->|Hx].
  - destruct (Req_dec y 0) as [->|Hy].
    + destruct (Req_dec z 0) as [->|Hz]; [exfalso; apply H; reflexivity|]. nra.
    + assert (0 < y * y) by nra. nra.
  - assert (0 < x * x) by nra. nra.
Qed.

Lemma vnorm_sq a : vnorm a * vnorm a = vdot a a.
Proof. unfold vnorm. apply sqrt_sqrt. unfold vdot. nra. Qed.

Lemma unit_axis a : a <> vzero -> vdot (vscale (/ vnorm a) a) (vscale (/ vnorm a) a) = 1.
Proof.
  intros H. pose proof (vnorm_pos a H) as Hp. pose proof (vnorm_sq a) as Hs.
  replace (vdot (vscale (/ vnorm a) a) (vscale (/ vnorm a) a)) with (vdot a a * / vnorm a * / vnorm a) by (vunf; ring).
  rewrite <- Hs. field. lra.
Qed.

(* identities modulo n.n = 1 and s*s + c*c = 1 *)
Lemma rotm_is_rotation n t : vdot n n = 1 -> is_rotation (rotm n t).
Proof.
  intros Hn. pose proof (sincos t) as Hsc. unfold rotm. destruct n as [a b c]. unfold vdot in Hn. cbn [vx vy vz] in *.
  set (s := sin t) in *. set (k := cos t) in *. clearbody s k. cbv zeta.
  assert (Hc : c * c = 1 - a * a - b * b) by lra. assert (Hs : s * s = 1 - k * k) by lra.
  split; [|split].
  - vunf. apply m3_eq; apply v3_eq; cbn [vx vy vz row1 row2 row3]; ring_simplify;
    replace (c^4) with ((c*c)*(c*c)) by ring; replace (c^3) with (c*(c*c)) by ring; replace (c^2) with (c*c) by ring;
    replace (s^2) with (s*s) by ring; rewrite ?Hc, ?Hs; ring.
  - vunf. apply m3_eq; apply v3_eq; cbn [vx vy vz row1 row2 row3]; ring_simplify;
    replace (c^4) with ((c*c)*(c*c)) by ring; replace (c^3) with (c*(c*c)) by ring; replace (c^2) with (c*c) by ring;
    replace (s^2) with (s*s) by ring; rewrite ?Hc, ?Hs; ring.
  - vunf. ring_simplify.
    replace (c^6) with ((c*c)*(c*c)*(c*c)) by ring; replace (c^4) with ((c*c)*(c*c)) by ring;
    replace (c^3) with (c*(c*c)) by ring; replace (c^5) with (c*(c*c)*(c*c)) by ring; replace (c^2) with (c*c) by ring;
    replace (s^3) with (s*(s*s)) by ring; replace (s^2) with (s*s) by ring; rewrite ?Hc, ?Hs; ring.
Qed.

Lemma rotation_matrix_rotm axis t : rotation_matrix axis t = rotm (vscale (/ vnorm axis) axis) t.
Proof. reflexivity. Qed.

Lemma rotation_matrix_rotation axis t : axis <> vzero -> is_rotation (rotation_matrix axis t).
Proof. intros H. rewrite rotation_matrix_rotm. apply rotm_is_rotation, unit_axis, H. Qed.

Lemma rotm_axis n t : vdot n n = 1 -> mv (rotm n t) n = n.
Proof.
  intros Hn. destruct n as [a b c]. unfold vdot in Hn. cbn [vx vy vz] in *.
  unfold rotm. vunf. set (k := cos t). set (s := sin t). clearbody k s.
  assert (Hc : c * c = 1 - a * a - b * b) by lra.
  apply v3_eq; cbn [vx vy vz]; ring_simplify;
   replace (c^4) with ((c*c)*(c*c)) by ring; replace (c^3) with (c*(c*c)) by ring; replace (c^2) with (c*c) by ring;
   rewrite ?Hc; ring.
Qed.

Lemma rotation_matrix_axis axis t : axis <> vzero -> mv (rotation_matrix axis t) axis = axis.
Proof.
  intros H. rewrite rotation_matrix_rotm. pose proof (vnorm_pos _ H) as Hp.
  pose proof (rotm_axis _ t (unit_axis _ H)) as E.
  set (m := rotm (vscale (/ vnorm axis) axis) t) in *.
  assert (E2 : vscale (vnorm axis) (mv m (vscale (/ vnorm axis) axis)) = mv m axis).
  { vunf. apply v3_eq; cbn [vx vy vz]; field; lra. }
  rewrite <- E2, E. vunf. apply v3_eq; cbn [vx vy vz]; field; lra.
Qed.

Lemma rotm_plus n t u : vdot n n = 1 -> mm (rotm n t) (rotm n u) = rotm n (t + u).
Proof.
  intros Hn. destruct n as [a b c]. unfold vdot in Hn. cbn [vx vy vz] in *.
  unfold rotm. rewrite cos_plus, sin_plus. cbv zeta.
  set (k := cos t). set (s := sin t). set (k' := cos u). set (s' := sin u). clearbody k s k' s'.
  assert (Hc : c * c = 1 - a * a - b * b) by lra.
  vunf. apply m3_eq; apply v3_eq; cbn [vx vy vz row1 row2 row3]; ring_simplify;
   replace (c^4) with ((c*c)*(c*c)) by ring; replace (c^3) with (c*(c*c)) by ring; replace (c^2) with (c*c) by ring;
   rewrite ?Hc; ring.
Qed.

Lemma rotation_matrix_plus axis t u : axis <> vzero ->
  mm (rotation_matrix axis t) (rotation_matrix axis u) = rotation_matrix axis (t + u).
Proof. intros H. rewrite !rotation_matrix_rotm. apply rotm_plus, unit_axis, H. Qed.

(** a vector perpendicular to the axis turns by [t] in the right-handed sense *)
Lemma rotation_matrix_perp axis t v : axis <> vzero -> vdot axis v = 0 ->
  mv (rotation_matrix axis t) v =
  vadd (vscale (cos t) v) (vscale (sin t / vnorm axis) (vcross axis v)).
Proof.
  intros H Hp. rewrite rotation_matrix_rotm. pose proof (vnorm_pos _ H) as Hn.
  destruct axis as [a b c], v as [x y z]. unfold vdot in Hp. cbn [vx vy vz] in Hp.
  set (q := / vnorm (V3 a b c)) in *.
  unfold rotm. vunf.
  unfold Rdiv. fold q.
  set (k := cos t). set (s := sin t). clearbody k s q.
  assert (Hx : a * x = - (b * y) - c * z) by lra.
  apply v3_eq; cbn [vx vy vz].
  - transitivity (q * q * (1 - k) * a * (a * x + b * y + c * z) + (k * x + s * q * (b * z - c * y))); [ring|rewrite Hp; ring].
  - transitivity (q * q * (1 - k) * b * (a * x + b * y + c * z) + (k * y + s * q * (c * x - a * z))); [ring|rewrite Hp; ring].
  - transitivity (q * q * (1 - k) * c * (a * x + b * y + c * z) + (k * z + s * q * (a * y - b * x))); [ring|rewrite Hp; ring].
Qed.

(** ** rotz, roty *)
Lemma rotz_rotm t : rotz t = rotm (V3 0 0 1) t.
Proof. unfold rotz, rotm. vunf. apply m3_eq; apply v3_eq; cbn; ring. Qed.
Lemma roty_rotm t : roty t = rotm (V3 0 1 0) t.
Proof. unfold roty, rotm. vunf. apply m3_eq; apply v3_eq; cbn; ring. Qed.
Lemma rotz_rotation t : is_rotation (rotz t).
Proof. rewrite rotz_rotm. apply rotm_is_rotation. vunf. ring. Qed.
Lemma roty_rotation t : is_rotation (roty t).
Proof. rewrite roty_rotm. apply rotm_is_rotation. vunf. ring. Qed.
Lemma rotz_plus t u : mm (rotz t) (rotz u) = rotz (t + u).
Proof. rewrite !rotz_rotm. apply rotm_plus. vunf. ring. Qed.
Lemma roty_plus t u : mm (roty t) (roty u) = roty (t + u).
Proof. rewrite !roty_rotm. apply rotm_plus. vunf. ring. Qed.
Lemma rotz_0 : rotz 0 = eye.
Proof. unfold rotz, eye. rewrite cos_0, sin_0. apply m3_eq; apply v3_eq; cbn; ring. Qed.
Lemma roty_0 : roty 0 = eye.
Proof. unfold roty, eye. rewrite cos_0, sin_0. apply m3_eq; apply v3_eq; cbn; ring. Qed.

(** ** phival *)
Lemma ltb_true a b : ltb a b = true <-> a < b.
Proof. unfold ltb. destruct (Rlt_dec a b); split; intros; try discriminate; try reflexivity; lra. Qed.
Lemma ltb_false a b : ltb a b = false <-> b <= a.
Proof. unfold ltb. destruct (Rlt_dec a b); split; intros; try discriminate; try reflexivity; lra. Qed.
Lemma leb_true a b : leb a b = true <-> a <= b.
Proof. unfold leb. destruct (Rle_dec a b); split; intros; try discriminate; try reflexivity; lra. Qed.
Lemma leb_false a b : leb a b = false <-> b < a.
Proof. unfold leb. destruct (Rle_dec a b); split; intros; try discriminate; try reflexivity; lra. Qed.

Lemma e16_pos : 0 < e16.
Proof. unfold e16. apply Rinv_0_lt_compat. lra. Qed.

Lemma cos_atan_pos u : cos (atan u) = / sqrt (1 + u ^ 2).
Proof.
  assert (E : tan (atan u) = u) by apply tan_atan.
  pose proof (atan_bound u) as [B1 B2].
  assert (C : 0 < cos (atan u)) by (apply cos_gt_0; lra).
  unfold tan in E. assert (S : sin (atan u) = u * cos (atan u)) by (rewrite <- E at 2; field; lra).
  pose proof (sincos (atan u)) as SC. rewrite S in SC.
  assert (K : cos (atan u) * cos (atan u) * (1 + u ^ 2) = 1) by (transitivity (u * cos (atan u) * (u * cos (atan u)) + cos (atan u) * cos (atan u)); [ring|exact SC]).
  assert (P : 0 < 1 + u ^ 2) by nra.
  assert (Q : 0 < sqrt (1 + u^2)) by (apply sqrt_lt_R0; exact P).
  apply Rmult_eq_reg_r with (sqrt (1 + u ^ 2)); [|lra]. rewrite Rinv_l by lra.
  apply Rsqr_inj; [apply Rmult_le_pos; lra|lra|].
  unfold Rsqr. transitivity (cos (atan u) * cos (atan u) * (sqrt (1 + u ^ 2) * sqrt (1 + u ^ 2))); [ring|].
  rewrite sqrt_sqrt by lra. rewrite K. ring.
Qed.

Lemma sin_atan_val u : sin (atan u) = u / sqrt (1 + u ^ 2).
Proof.
  assert (E : tan (atan u) = u) by apply tan_atan.
  pose proof (atan_bound u) as [B1 B2].
  assert (C : 0 < cos (atan u)) by (apply cos_gt_0; lra).
  unfold tan in E. unfold Rdiv. rewrite <- cos_atan_pos. rewrite <- E at 2. field. lra.
Qed.

Lemma sqrt_ratio x y : x <> 0 -> sqrt (x^2 + y^2) = Rabs x * sqrt (1 + (y / x) ^ 2).
Proof.
  intros H. rewrite <- (sqrt_Rsqr_abs x). rewrite <- sqrt_mult; [|apply Rle_0_sqr|].
  2:{ apply Rplus_le_le_0_compat; [lra|apply pow2_ge_0]. }
  f_equal. unfold Rsqr. field. exact H.
Qed.

(** cos and sin of the angle up to the sign of x *)
Lemma atan_cos_sin x y : x <> 0 ->
  sqrt (x^2 + y^2) * cos (atan (y / x)) = Rabs x /\ sqrt (x^2 + y^2) * sin (atan (y / x)) = Rabs x * (y / x).
Proof.
  intros H. rewrite sqrt_ratio by exact H. rewrite cos_atan_pos, sin_atan_val.
  assert (0 < sqrt (1 + (y / x) ^ 2)) by (apply sqrt_lt_R0; nra). split; field; lra.
Qed.

Lemma atan_pos u : 0 < u -> 0 < atan u < PI / 2.
Proof. intros H. pose proof (atan_increasing 0 u H). rewrite atan_0 in H0. pose proof (atan_bound u). lra. Qed.
Lemma atan_neg u : u < 0 -> - (PI / 2) < atan u < 0.
Proof. intros H. pose proof (atan_increasing u 0 H). rewrite atan_0 in H0. pose proof (atan_bound u). lra. Qed.

Lemma cos_plus_PI t : cos (t + PI) = - cos t. Proof. apply neg_cos. Qed.
Lemma sin_plus_PI t : sin (t + PI) = - sin t. Proof. apply neg_sin. Qed.
Lemma cos_plus_2PI t : cos (t + 2 * PI) = cos t.
Proof. replace (t + 2 * PI) with (t + PI + PI) by ring. rewrite !cos_plus_PI. ring. Qed.
Lemma sin_plus_2PI t : sin (t + 2 * PI) = sin t.
Proof. replace (t + 2 * PI) with (t + PI + PI) by ring. rewrite !sin_plus_PI. ring. Qed.

Lemma div_pos x y : 0 < x * y -> 0 < y / x.
Proof.
  intros H. assert (x <> 0) by (intros ->; lra). replace (y / x) with (x * y * (/ x * / x)) by (field; assumption).
  apply Rmult_lt_0_compat; [exact H|]. pose proof (Rinv_neq_0_compat x H0). nra.
Qed.
Lemma div_neg x y : x * y < 0 -> y / x < 0.
Proof.
  intros H. assert (0 < - y / x) by (apply div_pos; nra). unfold Rdiv in *. lra.
Qed.

Lemma polar_q1 x y : 0 < x -> 0 < y -> polar x y (atan (y / x)).
Proof.
  intros Hx Hy. pose proof (atan_pos (y / x) ltac:(apply div_pos; nra)). pose proof PI_RGT_0.
  destruct (atan_cos_sin x y ltac:(lra)) as [C S]. rewrite Rabs_pos_eq in * by lra.
  split; [lra|]. split; [lra|]. rewrite S. field. lra.
Qed.
Lemma polar_q2 x y : x < 0 -> 0 < y -> polar x y (atan (y / x) + PI).
Proof.
  intros Hx Hy. pose proof (atan_neg (y / x) ltac:(apply div_neg; nra)). pose proof PI_RGT_0.
  destruct (atan_cos_sin x y ltac:(lra)) as [C S]. rewrite (Rabs_left x) in * by lra.
  split; [lra|]. rewrite cos_plus_PI, sin_plus_PI. split; [lra|]. 
  transitivity (- (sqrt (x ^ 2 + y ^ 2) * sin (atan (y / x)))); [|ring]. rewrite S. field. lra.
Qed.
Lemma polar_q3 x y : x < 0 -> y < 0 -> polar x y (atan (y / x) + PI).
Proof.
  intros Hx Hy. pose proof (atan_pos (y / x) ltac:(apply div_pos; nra)). pose proof PI_RGT_0.
  destruct (atan_cos_sin x y ltac:(lra)) as [C S]. rewrite (Rabs_left x) in * by lra.
  split; [lra|]. rewrite cos_plus_PI, sin_plus_PI. split; [lra|].
  transitivity (- (sqrt (x ^ 2 + y ^ 2) * sin (atan (y / x)))); [|ring]. rewrite S. field. lra.
Qed.
Lemma polar_q4 x y : 0 < x -> y < 0 -> polar x y (atan (y / x) + 2 * PI).
Proof.
  intros Hx Hy. pose proof (atan_neg (y / x) ltac:(apply div_neg; nra)). pose proof PI_RGT_0.
  destruct (atan_cos_sin x y ltac:(lra)) as [C S]. rewrite Rabs_pos_eq in * by lra.
  split; [lra|]. rewrite cos_plus_2PI, sin_plus_2PI. split; [lra|]. rewrite S. field. lra.
Qed.

Lemma sqrt_sq_pos u : 0 <= u -> sqrt (u ^ 2) = u.
Proof. intros H. replace (u ^ 2) with (u * u) by ring. apply sqrt_square, H. Qed.

Lemma polar_x_pos x : 0 <= x -> polar x 0 0.
Proof.
  intros H. pose proof PI_RGT_0. split; [lra|]. replace (x^2 + 0^2) with (x^2) by ring.
  rewrite sqrt_sq_pos, cos_0, sin_0 by exact H. split; ring.
Qed.
Lemma polar_x_neg x : x < 0 -> polar x 0 PI.
Proof.
  intros H. pose proof PI_RGT_0. split; [lra|]. replace (x^2 + 0^2) with ((-x)^2) by ring.
  rewrite sqrt_sq_pos, cos_PI, sin_PI by lra. split; ring.
Qed.
Lemma polar_y_pos y : 0 < y -> polar 0 y (PI / 2).
Proof.
  intros H. pose proof PI_RGT_0. split; [lra|]. replace (0^2 + y^2) with (y^2) by ring.
  rewrite sqrt_sq_pos, cos_PI2, sin_PI2 by lra. split; ring.
Qed.
Lemma cos_3PI2' : cos (3 * PI / 2) = 0.
Proof. replace (3 * PI / 2) with (PI / 2 + PI) by field. rewrite cos_plus_PI, cos_PI2. ring. Qed.
Lemma sin_3PI2' : sin (3 * PI / 2) = -1.
Proof. replace (3 * PI / 2) with (PI / 2 + PI) by field. rewrite sin_plus_PI, sin_PI2. ring. Qed.
Lemma polar_y_neg y : y < 0 -> polar 0 y (3 * PI / 2).
Proof.
  intros H. pose proof PI_RGT_0. split; [lra|]. replace (0^2 + y^2) with ((-y)^2) by ring.
  rewrite sqrt_sq_pos, cos_3PI2', sin_3PI2' by lra. split; ring.
Qed.

Lemma resolved_cases u : resolved u -> u = 0 \/ e16 < u \/ u < - e16.
Proof.
  intros [H|H]; [left; exact H|right]. unfold Rabs in H. destruct (Rcase_abs u); [right|left]; lra.
Qed.

Ltac phi := repeat match goal with
  | |- context [ltb ?a ?b] => first [rewrite (proj2 (ltb_true a b)) by lra | rewrite (proj2 (ltb_false a b)) by lra]
  | |- context [leb ?a ?b] => first [rewrite (proj2 (leb_true a b)) by lra | rewrite (proj2 (leb_false a b)) by lra]
  end; cbn [andb].

Lemma phival_polar x y : resolved x -> resolved y -> exists t, phival x y = Some t /\ polar x y t.
Proof.
  intros Hx Hy. apply resolved_cases in Hx, Hy. pose proof e16_pos as E. unfold phival.
  destruct Hx as [->|[Hx|Hx]], Hy as [->|[Hy|Hy]];
    try rewrite Rabs_R0; try rewrite (Rabs_right x) by lra; try rewrite (Rabs_left x) by lra;
    try rewrite (Rabs_right y) by lra; try rewrite (Rabs_left y) by lra; phi; eexists; (split; [reflexivity|]).
  - apply polar_x_pos; lra.
  - apply polar_y_pos; lra.
  - apply polar_y_neg; lra.
  - apply polar_x_pos; lra.
  - apply polar_q1; lra.
  - apply polar_q4; lra.
  - apply polar_x_neg; lra.
  - apply polar_q2; lra.
  - apply polar_q3; lra.
Qed.

(** phival never raises *)
Lemma phival_total x y : exists t, phival x y = Some t /\ 0 <= t < 2 * PI.
Proof.
  pose proof e16_pos as E. pose proof PI_RGT_0 as P. unfold phival.
  destruct (ltb e16 x) eqn:X1, (ltb x (- e16)) eqn:X2, (ltb e16 y) eqn:Y1, (ltb y (- e16)) eqn:Y2;
   rewrite ?ltb_true, ?ltb_false in *; try lra; cbn [andb];
   repeat match goal with |- context [leb (Rabs ?u) e16] =>
     first [rewrite (proj2 (leb_true (Rabs u) e16)) by (unfold Rabs; destruct (Rcase_abs u); lra)
           |rewrite (proj2 (leb_false (Rabs u) e16)) by (unfold Rabs; destruct (Rcase_abs u); lra)] end;
   cbn [andb]; eexists; (split; [reflexivity|]); try lra.
  - pose proof (atan_pos (y / x) ltac:(apply div_pos; nra)). lra.
  - pose proof (atan_neg (y / x) ltac:(apply div_neg; nra)). lra.
  - pose proof (atan_neg (y / x) ltac:(apply div_neg; nra)). lra.
  - pose proof (atan_pos (y / x) ltac:(apply div_pos; nra)). lra.
Qed.

(** near the axes the angle is wrong by up to 45 degrees *)
Lemma phival_refuted : exists x y t, 0 < x /\ 0 < y /\ phival x y = Some t /\ ~ polar x y t.
Proof.
  pose proof e16_pos as E.
  exists (2 * e16), e16, 0. split; [lra|]. split; [lra|]. split.
  - unfold phival. rewrite (Rabs_right (2 * e16)), (Rabs_right e16) by lra. phi. reflexivity.
  - intros (_ & _ & H). rewrite sin_0 in H. lra.
Qed.

(** every point has a polar angle *)
Lemma polar_exists x y : exists t, polar x y t.
Proof.
  destruct (Rtotal_order x 0) as [Hx|[->|Hx]], (Rtotal_order y 0) as [Hy|[->|Hy]].
  - exists (atan (y / x) + PI). apply polar_q3; lra.
  - exists PI. apply polar_x_neg, Hx.
  - exists (atan (y / x) + PI). apply polar_q2; lra.
  - exists (3 * PI / 2). apply polar_y_neg, Hy.
  - exists 0. apply polar_x_pos. lra.
  - exists (PI / 2). apply polar_y_pos, Hy.
  - exists (atan (y / x) + 2 * PI). apply polar_q4; lra.
  - exists 0. apply polar_x_pos. lra.
  - exists (atan (y / x)). apply polar_q1; lra.
Qed.

Example ex_phival : phival (-1) 1 = Some (atan (1 / -1) + PI) /\ resolved (-1) /\ resolved 1.
Proof.
  pose proof e16_pos as E. assert (e16 < 1).
  { unfold e16. rewrite <- Rinv_1. apply Rinv_lt_contravar; lra. }
  unfold phival, resolved. rewrite Rabs_left, Rabs_right by lra. split; [phi; reflexivity|]. split; right; lra.
Qed.

Example ex_rotation : mv (rotation_matrix (V3 0 0 2) (PI / 2)) (V3 1 0 5) = V3 0 1 5.
Proof.
  rewrite rotation_matrix_rotm. assert (N : vnorm (V3 0 0 2) = 2).
  { unfold vnorm, vdot. cbn. replace (0 * 0 + 0 * 0 + 2 * 2) with (2 * 2) by ring. apply sqrt_square. lra. }
  rewrite N. unfold rotm. rewrite cos_PI2, sin_PI2. vunf. apply v3_eq; cbn; field.
Qed.
