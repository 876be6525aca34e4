(** Proofs about the angles of containers. *)
From Coq Require Import Reals ZArith List Bool Lia Lra.
From Verif Require Import Vec GeomModel GeomSpec GeomProofs ScaModel SkModel SkSpec SkProofs5 SkProofs8 Cpx AngModel AngSpec AngProofs AngProofs2 MpProofs2.
Import ListNotations.
Open Scope R_scope.

Lemma eps12_pos : 0 < eps12 < 1.
Proof. unfold eps12. split; [apply Rinv_0_lt_compat, pow_lt; lra|lra]. Qed.
Lemma ltb_t x y : x < y -> ltb x y = true.
Proof. intros H. unfold ltb. destruct (Rlt_dec x y); [reflexivity|contradiction]. Qed.
Lemma ltb_f x y : y <= x -> ltb x y = false.
Proof. intros H. unfold ltb. destruct (Rlt_dec x y); [lra|reflexivity]. Qed.
Lemma direction_of d : vdot d d = 1 -> axis_resolved d -> exists th ph, axis_angles d = Some (th, ph) /\ direction th ph = d.
Proof.
  intros Hd H. pose proof eps12_pos as E. unfold axis_angles. destruct H as [->|[->|[B [R1 R2]]]].
  - cbn [vz vx vy]. rewrite acos_1. rewrite Rabs_R0, ltb_t by lra. cbn [orb]. exists 0, 0. split; [reflexivity|].
    unfold direction. rewrite sin_0, cos_0. apply v3_eq; cbn; ring.
  - cbn [vz vx vy]. replace (acos (-1)) with PI by (replace (-1) with (- (1)) by ring; rewrite acos_opp, acos_1; ring).
    replace (PI - PI) with 0 by ring. rewrite Rabs_R0, (ltb_t 0) by lra. rewrite orb_true_r. exists PI, 0. split; [reflexivity|].
    unfold direction. rewrite sin_PI, cos_PI, cos_0, sin_0. apply v3_eq; cbn; ring.
  - destruct d as [x y z]. cbn [vx vy vz] in *. unfold vdot in Hd. cbn [vx vy vz] in Hd.
    assert (Z : -1 <= z <= 1) by nra.
    assert (S : sin (acos z) = sqrt (x ^ 2 + y ^ 2)).
    { rewrite sin_acos by exact Z. f_equal. unfold Rsqr. lra. }
    assert (P : 0 < sin (acos z)) by (apply sin_gt_0; lra).
    rewrite (Rabs_right (acos z)) by lra. rewrite ltb_f by lra.
    rewrite (Rabs_left1 (acos z - PI)) by lra. rewrite ltb_f by lra. cbn [orb].
    rewrite <- S in R1, R2. destruct (phival_polar _ _ R1 R2) as [ph [Ep [_ [C D]]]]. rewrite Ep. exists (acos z), ph. split; [reflexivity|].
    assert (Q : sqrt ((x / sin (acos z)) ^ 2 + (y / sin (acos z)) ^ 2) = 1).
    { replace ((x / sin (acos z)) ^ 2 + (y / sin (acos z)) ^ 2) with 1; [apply sqrt_1|].
      assert (S2 : sin (acos z) ^ 2 = x ^ 2 + y ^ 2) by (rewrite S; apply pow2_sqrt; nra).
      replace ((x / sin (acos z)) ^ 2 + (y / sin (acos z)) ^ 2) with ((x ^ 2 + y ^ 2) / sin (acos z) ^ 2) by (field; lra).
      rewrite <- S2. field. lra. }
    rewrite Q in C, D. unfold direction. rewrite cos_acos by exact Z.
    apply v3_eq; cbn [vx vy vz]; [| |reflexivity].
    + rewrite <- (Rmult_1_l (cos ph)), <- C. field. lra.
    + rewrite <- (Rmult_1_l (sin ph)), <- D. field. lra.
Qed.
Lemma direction_00 : direction 0 0 = V3 0 0 1.
Proof. unfold direction. rewrite sin_0, cos_0. apply v3_eq; cbn; ring. Qed.
Lemma z_unit : vdot (V3 0 0 1) (V3 0 0 1) = 1.
Proof. vunf. ring. Qed.
Lemma rotz_matrix t : rotz t = rotation_matrix (direction 0 0) t.
Proof. rewrite rotz_rotm, direction_rotm, direction_00. reflexivity. Qed.
(** Sphere, mode 4 *)
Lemma planar_axis v : v <> vzero -> vz v = 0 -> forall t,
  rotation_matrix v t = rotation_matrix (direction (PI / 2) (atan2 (vy (vscale (/ vnorm v) v)) (vx (vscale (/ vnorm v) v)))) t.
Proof.
  intros H Hz t. rewrite direction_rotm, rotation_matrix_rotm. f_equal. pose proof (unit_axis v H) as U.
  set (n := vscale (/ vnorm v) v) in *.
  assert (Z : vz n = 0) by (unfold n; destruct v; cbn in *; subst; ring).
  clearbody n. destruct n as [x y z]. cbn [vx vy vz] in *. subst z.
  destruct (atan2_polar y x) as [A B]. unfold vdot in U. cbn [vx vy vz] in U.
  replace (x * x + y * y) with 1 in A, B by lra. rewrite sqrt_1 in A, B.
  unfold direction. rewrite sin_PI2, cos_PI2. apply v3_eq; cbn [vx vy vz]; lra.
Qed.
Lemma tat_is_rotation a n : is_rotation (rotation TwistAndTurn a n).
Proof.
  cbn [rotation]. destruct (o3 n =? 0)%Z; [apply is_rotation_eye|]. apply is_rotation_mm; apply rotation_matrix_rotation.
  - apply unit_nonzero. vunf. pose proof (sincos (t_bend a / 2)). lra.
  - apply unit_nonzero. vunf. ring.
Qed.
Lemma container_angles eig u c a n th ph an : angles_defined eig u c a n ->
  rotation_angles eig u c a n = Angles th ph an -> rotation c a n = rotation_matrix (direction th ph) an.
Proof.
  intros Hd H. destruct c; cbn [rotation_angles] in H; try discriminate.
  - injection H as <- <- <-. cbn [rotation]. apply rotz_matrix.
  - unfold sphere_angles in H. destruct Hd as [Hm Hd]. cbn [rotation]. unfold sphere_rotation.
    destruct ((o1 n =? o2 n)%Z && (o2 n =? 0)%Z)%bool eqn:Z; [discriminate|]. rewrite Hm in *. cbn [Z.eqb Pos.eqb negb] in *. cbv zeta in *.
    injection H as <- <- <-. apply planar_axis.
    + destruct Hd as [[A B]|Hd]; [|exact Hd]. rewrite A, B in Z. discriminate Z.
    + unfold s_n1, s_n2. vunf. ring.
  - injection H as <- <- <-. cbn [rotation]. apply wedgeyaxis_angles.
  - destruct (o3 n =? 0)%Z eqn:Z; [discriminate|]. destruct Hd as [Hd|(He & Hu & Hr & Ha)]; [apply Z.eqb_neq in Z; contradiction|].
    set (m := rotation TwistAndTurn a n) in *.
    destruct (from_matrix m (eig m) u (tat_is_rotation a n) He Hu Hr) as [an' [t [E [U [_ [F M]]]]]]. rewrite E in H.
    assert (U' : vdot t t = 1) by (rewrite <- (vnorm_sq t), U; ring).
    destruct (direction_of t U' (Ha t U' F)) as [th' [ph' [E' D]]]. rewrite E' in H. injection H as <- <- <-.
    rewrite D. exact M.
  - injection H as <- <- <-. cbn [rotation]. apply rotz_matrix.
Qed.
(** the three that are asked give angles *)
Lemma container_gives eig u c a n : angles_defined eig u c a n ->
  match c with Sphere => o1 n <> 0%Z \/ o2 n <> 0%Z | TwistAndTurn => o3 n <> 0%Z | Wedge | WedgeYAxis | ChiralGeneral => True | _ => False end ->
  exists th ph an, rotation_angles eig u c a n = Angles th ph an.
Proof.
  intros Hd Hn. destruct c; try contradiction; cbn [rotation_angles]; try (eexists; eexists; eexists; reflexivity).
  - unfold sphere_angles. destruct Hd as [Hm _].
    replace ((o1 n =? o2 n)%Z && (o2 n =? 0)%Z)%bool with false by (destruct (Z.eqb_spec (o1 n) (o2 n)), (Z.eqb_spec (o2 n) 0); cbn; try reflexivity; lia).
    rewrite Hm. cbn [Z.eqb Pos.eqb negb]. cbv zeta. eexists; eexists; eexists; reflexivity.
  - destruct (Z.eqb_spec (o3 n) 0) as [Z|Z]; [contradiction|]. destruct Hd as [Hd|(He & Hu & Hr & Ha)]; [contradiction|].
    set (m := rotation TwistAndTurn a n) in *.
    destruct (from_matrix m (eig m) u (tat_is_rotation a n) He Hu Hr) as [an' [t [E [U [_ [F M]]]]]]. rewrite E.
    assert (U' : vdot t t = 1) by (rewrite <- (vnorm_sq t), U; ring).
    destruct (direction_of t U' (Ha t U' F)) as [th' [ph' [E' D]]]. rewrite E'. eexists; eexists; eexists; reflexivity.
Qed.
