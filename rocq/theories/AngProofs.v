(** Proofs about axis and angle of rotation matrices. *)
From Coq Require Import Reals ZArith List Bool Lia Lra.
From Verif Require Import Vec GeomModel GeomSpec GeomProofs ScaModel SkModel SkSpec Cpx AngModel AngSpec MpProofs2.
Import ListNotations.
Open Scope R_scope.

Ltac dm m := let r1 := fresh "r" in destruct m as [[?a ?b ?c] [?d ?e ?f] [?g ?h ?k]].
Lemma det_tr m : det (tr m) = det m.
Proof. destruct m as [[a b c] [d e f] [g h k]]. vunf. ring. Qed.
(** the cofactors *)
Definition cof (m : m3) : m3 := M3 (vcross (row2 m) (row3 m)) (vcross (row3 m) (row1 m)) (vcross (row1 m) (row2 m)).
Lemma cof_cross m x y : mv (cof m) (vcross x y) = vcross (mv m x) (mv m y).
Proof. destruct m as [[a b c] [d e f] [g h k]], x, y. unfold cof. vunf. apply v3_eq; cbn; ring. Qed.
Lemma cof_tr m : mm (tr (cof m)) m = M3 (V3 (det m) 0 0) (V3 0 (det m) 0) (V3 0 0 (det m)).
Proof. destruct m as [[a b c] [d e f] [g h k]]. unfold cof. vunf. apply m3_eq; apply v3_eq; cbn; ring. Qed.
Lemma tr_tr m : tr (tr m) = m.
Proof. destruct m as [[a b c] [d e f] [g h k]]. reflexivity. Qed.
Lemma rotation_cof m : is_rotation m -> cof m = m.
Proof.
  intros (H1 & H2 & H3). pose proof (cof_tr m) as C. rewrite H3 in C. change (M3 (V3 1 0 0) (V3 0 1 0) (V3 0 0 1)) with eye in C.
  assert (E : tr (cof m) = tr m) by (rewrite <- (mm_eye_r (tr (cof m))), <- H2, <- mm_assoc, C, mm_eye_l; reflexivity).
  rewrite <- (tr_tr (cof m)), E. apply tr_tr.
Qed.
Lemma rotation_cross m x y : is_rotation m -> mv m (vcross x y) = vcross (mv m x) (mv m y).
Proof. intros H. rewrite <- cof_cross, (rotation_cof m H). reflexivity. Qed.
Lemma rotation_dot m x y : is_rotation m -> vdot (mv m x) (mv m y) = vdot x y.
Proof. intros (H & _). rewrite vdot_mv, <- mv_mm, H, mv_eye. reflexivity. Qed.

(** a right-handed frame *)
Definition frame (t a : v3) : m3 := M3 t a (vcross t a).
Lemma frame_rotation t a : vdot t t = 1 -> vdot a a = 1 -> vdot t a = 0 -> is_rotation (frame t a).
Proof.
  intros Ht Ha Hta.
  assert (L : vdot (vcross t a) (vcross t a) = 1).
  { transitivity (vdot t t * vdot a a - vdot t a * vdot t a); [destruct t, a; vunf; ring|rewrite Ht, Ha, Hta; ring]. }
  assert (T1 : vdot t (vcross t a) = 0) by (destruct t, a; vunf; ring).
  assert (T2 : vdot a (vcross t a) = 0) by (destruct t, a; vunf; ring).
  assert (HO : mm (frame t a) (tr (frame t a)) = eye).
  { transitivity (M3 (V3 (vdot t t) (vdot t a) (vdot t (vcross t a))) (V3 (vdot t a) (vdot a a) (vdot a (vcross t a)))
                     (V3 (vdot t (vcross t a)) (vdot a (vcross t a)) (vdot (vcross t a) (vcross t a)))).
    - unfold frame. generalize (vcross t a). intros b. destruct t, a, b. vunf. apply m3_eq; apply v3_eq; cbn; ring.
    - rewrite Ht, Ha, Hta, L, T1, T2. reflexivity. }
  assert (HD : det (frame t a) = 1).
  { rewrite <- L. unfold frame. destruct t, a. vunf. ring. }
  split; [|split; assumption].
  pose proof (cof_tr (frame t a)) as C. rewrite HD in C. change (M3 (V3 1 0 0) (V3 0 1 0) (V3 0 0 1)) with eye in C.
  assert (E : tr (cof (frame t a)) = tr (frame t a)).
  { rewrite <- (mm_eye_r (tr (cof (frame t a)))), <- HO, <- mm_assoc, C, mm_eye_l. reflexivity. }
  rewrite <- E. exact C.
Qed.
Lemma frame_coords t a v : vdot t t = 1 -> vdot a a = 1 -> vdot t a = 0 ->
  v = vadd (vscale (vdot v t) t) (vadd (vscale (vdot v a) a) (vscale (vdot v (vcross t a)) (vcross t a))).
Proof.
  intros Ht Ha Hta. destruct (frame_rotation t a Ht Ha Hta) as (H & _).
  pose proof (mv_eye v) as E. rewrite <- H, mv_mm in E. rewrite <- E at 1. unfold frame.
  destruct t as [t1 t2 t3], a as [a1 a2 a3], v as [v1 v2 v3]. vunf. apply v3_eq; cbn; ring.
Qed.
(** matrices that agree on a frame are equal *)
Lemma frame_ext t a m m' : vdot t t = 1 -> vdot a a = 1 -> vdot t a = 0 ->
  mv m t = mv m' t -> mv m a = mv m' a -> mv m (vcross t a) = mv m' (vcross t a) -> m = m'.
Proof.
  intros Ht Ha Hta E1 E2 E3. destruct (frame_rotation t a Ht Ha Hta) as (H & _).
  assert (E : mm m (tr (frame t a)) = mm m' (tr (frame t a))).
  { unfold frame. clear - E1 E2 E3. destruct m as [[m1 m2 m3] [m4 m5 m6] [m7 m8 m9]], m' as [[n1 n2 n3] [n4 n5 n6] [n7 n8 n9]], t as [t1 t2 t3], a as [a1 a2 a3].
    unfold mv in E1, E2, E3. injection E1 as ? ? ?. injection E2 as ? ? ?. injection E3 as ? ? ?.
    vunf. apply m3_eq; apply v3_eq; cbn; assumption. }
  rewrite <- (mm_eye_r m), <- (mm_eye_r m'), <- H, <- !mm_assoc, E. reflexivity.
Qed.
Lemma unit_circle x y : x ^ 2 + y ^ 2 = 1 -> exists t, cos t = x /\ sin t = y.
Proof.
  intros H. exists (atan2 y x). destruct (atan2_polar y x) as [A B].
  replace (x * x + y * y) with 1 in A, B by lra. rewrite sqrt_1 in A, B. lra.
Qed.
Lemma unit_norm t : vdot t t = 1 -> vnorm t = 1.
Proof. intros H. unfold vnorm. rewrite H. apply sqrt_1. Qed.
Lemma unit_nonzero t : vdot t t = 1 -> t <> vzero.
Proof. intros H E. rewrite E in H. vunf. lra. Qed.
Lemma scale1 t : vscale 1 t = t.
Proof. destruct t. vring. Qed.
Lemma scale_inv1 t : vdot t t = 1 -> vscale (/ vnorm t) t = t.
Proof. intros H. rewrite (unit_norm t H), Rinv_1. apply scale1. Qed.
Lemma rotation_matrix_axis t th : t <> vzero -> mv (rotation_matrix t th) t = t.
Proof.
  intros H. pose proof (unit_axis t H) as U. rewrite rotation_matrix_rotm. pose proof (vnorm_pos t H) as P.
  set (n := vscale (/ vnorm t) t) in *.
  assert (E : t = vscale (vnorm t) n) by (unfold n; destruct t as [x y z]; unfold vscale; apply v3_eq; cbn; field; lra).
  rewrite E. clearbody n. set (k := vnorm t). clearbody k. 
  transitivity (vscale ((1 - cos th) * vdot n n + cos th) (vscale k n)).
  - destruct n as [x y z]. unfold rotm. vunf. apply v3_eq; cbn; ring.
  - rewrite U. destruct n as [x y z]. vunf. apply v3_eq; cbn; ring.
Qed.
(** a rotation with a fixed unit vector is a rotation about it, by an angle that any perpendicular vector shows *)
Lemma turn m t a : is_rotation m -> vdot t t = 1 -> mv m t = t -> vdot a a = 1 -> vdot t a = 0 ->
  exists th, m = rotation_matrix t th /\ vdot a (mv m a) = cos th /\ vdot (mv m a) (vcross t a) = sin th.
Proof.
  intros Hm Ht Hf Ha Hta.
  set (c := vdot a (mv m a)). set (s := vdot (mv m a) (vcross t a)).
  assert (D : mv m a = vadd (vscale c a) (vscale s (vcross t a))).
  { rewrite (frame_coords t a (mv m a) Ht Ha Hta) at 1. fold s.
    replace (vdot (mv m a) t) with 0. 2:{ rewrite <- Hf, rotation_dot by exact Hm. rewrite <- Hta. vunf; ring. }
    replace (vdot (mv m a) a) with c by (unfold c; vunf; ring).
    destruct t, a. vunf. apply v3_eq; cbn; ring. }
  assert (N : c ^ 2 + s ^ 2 = 1).
  { pose proof (rotation_dot m a a Hm) as E. rewrite Ha, D in E. rewrite <- E. clearbody c s. clear - Ht Ha Hta.
    transitivity (c ^ 2 * vdot a a + s ^ 2 * (vdot t t * vdot a a - vdot t a * vdot t a)).
    - rewrite Ht, Ha, Hta. ring.
    - destruct t as [t1 t2 t3], a as [a1 a2 a3]. vunf. ring. }
  destruct (unit_circle c s N) as [th [Hc Hs]]. exists th. split; [|split; auto].
  assert (TT : vcross t (vcross t a) = vscale (-1) a).
  { transitivity (vsub (vscale (vdot t a) t) (vscale (vdot t t) a)).
    - clear. destruct t as [t1 t2 t3], a as [a1 a2 a3]. vunf. apply v3_eq; cbn; ring.
    - rewrite Ht, Hta. clear. destruct t as [t1 t2 t3], a as [a1 a2 a3]. vunf. apply v3_eq; cbn; ring. }
  assert (PB : vdot t (vcross t a) = 0) by (destruct t, a; vunf; ring).
  pose proof (unit_nonzero t Ht) as Z.
  apply (frame_ext t a); try assumption.
  - rewrite rotation_matrix_axis by exact Z. exact Hf.
  - rewrite rotation_matrix_perp by assumption. rewrite (unit_norm t Ht), Hc, Hs, D. f_equal. f_equal. field.
  - rewrite rotation_matrix_perp by assumption. rewrite (unit_norm t Ht), Hc, Hs, TT.
    rewrite rotation_cross, Hf, D by exact Hm.
    replace (vcross t (vadd (vscale c a) (vscale s (vcross t a)))) with (vadd (vscale c (vcross t a)) (vscale s (vcross t (vcross t a)))).
    + rewrite TT. destruct t, a. vunf. apply v3_eq; cbn; field.
    + destruct t, a. vunf. apply v3_eq; cbn; ring.
Qed.
Lemma cos_of_turn t th : vdot t t = 1 -> cos_of (rotation_matrix t th) = cos th.
Proof.
  intros H. rewrite rotation_matrix_rotm, scale_inv1 by exact H. unfold cos_of, trace, rotm. destruct t as [x y z]. vunf.
  replace (x ^ 2 * (1 - cos th) + cos th + (y ^ 2 * (1 - cos th) + cos th) + (z ^ 2 * (1 - cos th) + cos th) - 1)
    with ((x * x + y * y + z * z) * (1 - cos th) + 3 * cos th - 1) by ring. rewrite H. field.
Qed.
Lemma resolved_opp x : resolved (- x) -> resolved x.
Proof. unfold resolved. rewrite Rabs_Ropp. intros [H|H]; [left; lra|right; exact H]. Qed.
Lemma resolved_angle t th : vdot t t = 1 -> angle_resolved (rotation_matrix t th) -> resolved (cos th) /\ resolved (sin th).
Proof.
  intros H [A B]. unfold sin_of in B. rewrite cos_of_turn in A, B by exact H. split; [exact A|].
  pose proof (sincos th) as E. replace (1 - cos th ^ 2) with (sin th ^ 2) in B by lra.
  replace (sin th ^ 2) with (Rsqr (sin th)) in B by (unfold Rsqr; ring). rewrite sqrt_Rsqr_abs in B.
  unfold Rabs in B. destruct (Rcase_abs (sin th)); [apply resolved_opp|]; exact B.
Qed.
Lemma phival_angle th : resolved (cos th) -> resolved (sin th) ->
  exists an, phival (cos th) (sin th) = Some an /\ 0 <= an < 2 * PI /\ cos an = cos th /\ sin an = sin th.
Proof.
  intros A B. destruct (phival_polar _ _ A B) as [an [E [P [C S]]]]. exists an. split; [exact E|]. split; [exact P|].
  pose proof (sincos th) as U. replace (cos th ^ 2 + sin th ^ 2) with 1 in C, S by lra. rewrite sqrt_1 in C, S. lra.
Qed.
Lemma rotation_matrix_cs t a b : cos a = cos b -> sin a = sin b -> rotation_matrix t a = rotation_matrix t b.
Proof. intros H1 H2. unfold rotation_matrix. rewrite H1, H2. reflexivity. Qed.

