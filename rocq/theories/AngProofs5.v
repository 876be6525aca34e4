(** Examples and counterexamples. *)
From Coq Require Import Reals ZArith List Bool Lia Lra.
From Verif Require Import Vec GeomModel GeomSpec GeomProofs ScaModel SkModel SkSpec SkProofs5 SkProofs8 Cpx AngModel AngSpec AngProofs AngProofs2 AngProofs3 AngProofs4.
Import ListNotations.
Open Scope R_scope.

(** a quarter turn about y *)
Definition quarter : m3 := M3 (V3 0 0 1) (V3 0 1 0) (V3 (-1) 0 0).
Definition quarter_eigs : list eigenpair :=
  [((0, 1), (V3 1 0 0, V3 0 0 1)); ((1, 0), (V3 0 3 0, V3 0 0 0)); ((0, -1), (V3 1 0 0, V3 0 0 (-1)))].
Definition ex_u : v3 := V3 (1/2) (1/3) (1/4).
Lemma quarter_roty : roty (PI / 2) = quarter.
Proof. unfold roty, quarter. rewrite cos_PI2, sin_PI2. f_equal. Qed.
Lemma v3_ne x y z x' y' z' : x <> x' \/ y <> y' \/ z <> z' -> V3 x y z <> V3 x' y' z'.
Proof. intros H E. injection E as ? ? ?. tauto. Qed.
Lemma quarter_rotation : is_rotation quarter.
Proof. rewrite <- quarter_roty. apply roty_rotation. Qed.
Lemma quarter_eig : eigenpairs_of quarter quarter_eigs.
Proof.
  split.
  - intros p [<-|[<-|[<-|[]]]]; unfold eigenvector; cbn [fst snd]; (split; [split; [|split]|]).
    all: try (left; apply v3_ne; lra). all: try (intros; lra). all: try (unfold quarter; vunf; apply v3_eq; cbn; ring).
    intros _. reflexivity.
  - eexists. eexists. eexists. split; [reflexivity|]. intros x. unfold quarter, msub, mscale, rc, cmul, csub, cadd, copp. vunf. apply cplx_eq; cbn [fst snd]; ring.
Qed.
Lemma quarter_moves : mv quarter ex_u <> ex_u.
Proof. unfold quarter, ex_u. vunf. apply v3_ne. left. lra. Qed.
Lemma resolved0 : resolved 0. Proof. left. reflexivity. Qed.
Lemma resolved1 x : Rabs x = 1 -> resolved x.
Proof. intros H. right. rewrite H. unfold e16. assert (1 < 10 ^ 16) by (simpl; lra). apply Rlt_le_trans with (/ 1); [apply Rinv_lt_contravar; lra|rewrite Rinv_1; lra]. Qed.
Lemma quarter_resolved : angle_resolved quarter.
Proof.
  unfold angle_resolved, sin_of, cos_of, trace, quarter. cbn [vx vy vz row1 row2 row3].
  replace ((0 + 1 + 0 - 1) / 2) with 0 by field. replace (1 - 0 ^ 2) with 1 by ring. rewrite sqrt_1. split; [apply resolved0|apply resolved1, Rabs_R1].
Qed.
Lemma quarter_axis d : vdot d d = 1 -> mv quarter d = d -> axis_resolved d.
Proof.
  intros U F. destruct d as [x y z]. unfold quarter in F. vunf. injection F as F1 F2 F3.
  assert (x = 0) by lra. assert (z = 0) by lra. subst. right. right. cbn [vx vy vz]. rewrite acos_0.
  pose proof PI2_3_2. pose proof eps12_pos. split; [lra|].
  assert (Y : y ^ 2 = 1) by lra. replace (0 ^ 2 + y ^ 2) with 1 by lra. rewrite sqrt_1. replace (0 / 1) with 0 by field. replace (y / 1) with y by field. split; [apply resolved0|].
  apply resolved1. destruct (Rle_dec 0 y); [rewrite Rabs_right by lra|rewrite Rabs_left by lra]; nra.
Qed.
Example ex_from_matrix : exists angle t, rotation_from_matrix quarter_eigs ex_u quarter = Ok (angle, t) /\ vnorm t = 1 /\
  0 <= angle < 2 * PI /\ mv quarter t = t /\ quarter = rotation_matrix t angle.
Proof. apply from_matrix; [apply quarter_rotation|apply quarter_eig|apply quarter_moves|apply quarter_resolved]. Qed.

(** TwistAndTurn without bending, a quarter turn of twist *)
Definition tat_cell (i j : nat) : R := match i, j with O, 2%nat => PI / 2 | _, _ => 0 end.
Definition tat_atoms : atoms := {| cell := tat_cell; pbc := (false, false, true); pos := [V3 5 0 0]; slabx := (0, 0) |}.
Definition one_turn : op := (0, 0, 1)%Z.
Lemma tat_quarter : rotation TwistAndTurn tat_atoms one_turn = quarter.
Proof.
  cbn [rotation one_turn o3 snd Z.eqb]. unfold t_bend, t_twist, tat_atoms. cbn [cell tat_cell].
  replace (0 / 2) with 0 by field. rewrite sin_0, cos_0, !Rmult_1_l, Ropp_0.
  rewrite (rotation_matrix_rotm (V3 0 0 1)), scale_inv1 by exact z_unit. rewrite <- rotz_rotm.
  replace (rotz 0) with eye by (unfold rotz, eye; rewrite sin_0, cos_0, Ropp_0; reflexivity). rewrite mm_eye_r.
  rewrite rotation_matrix_rotm, scale_inv1 by (vunf; ring). rewrite <- roty_rotm. apply quarter_roty.
Qed.
Definition ex_eig (m : m3) : list eigenpair := quarter_eigs.
Example ex_tat : angles_defined ex_eig ex_u TwistAndTurn tat_atoms one_turn.
Proof.
  right. cbv zeta. rewrite tat_quarter. split; [apply quarter_eig|]. split; [apply quarter_moves|]. split; [apply quarter_resolved|apply quarter_axis].
Qed.
Example ex_tat_angles : exists th ph an, rotation_angles ex_eig ex_u TwistAndTurn tat_atoms one_turn = Angles th ph an.
Proof. apply container_gives; [apply ex_tat|cbn; lia]. Qed.
Lemma quarter_clear : clear_cut quarter.
Proof.
  pose proof eps12_pos. unfold clear_cut, quarter. cbn [m3e comp vx vy vz row1 row2 row3].
  assert (A : Rabs (0 - 1) = 1) by (rewrite Rabs_left by lra; lra). rewrite A. split; intros; lra.
Qed.
Example ex_tat_orbitals : exists D, container_transformation ex_eig ex_u TwistAndTurn tat_atoms true one_turn = Some D /\
    forall b x, (b < 9)%nat -> orbital b (mv (tr (rotation TwistAndTurn tat_atoms one_turn)) x) = rsum 9 (fun k => orbital k x * D k b).
Proof.
  apply container_orbitals; [apply ex_tat| |]; rewrite tat_quarter; [apply quarter_clear|].
  intros _. pose proof eps12_pos. unfold quarter. cbn [m3e comp vx vy vz row1 row2 row3]. replace (0 + 1) with 1 by ring. rewrite Rabs_R1. lra.
Qed.

(** Sphere whose mode was not set: perpendicular axes, a quarter turn *)
Definition sph_cell (mode : R) (i j : nat) : R :=
  match i, j with O, 1%nat => PI / 2 | O, 2%nat => PI / 2 | 1%nat, O => 1 | 2%nat, 1%nat => 1 | 1%nat, 2%nat => mode | _, _ => 0 end.
Definition sph_atoms (mode : R) : atoms := {| cell := sph_cell mode; pbc := (true, true, false); pos := []; slabx := (0, 0) |}.
Definition first_turn : op := (1, 0, 0)%Z.
Lemma int0 : Int_part 0 = 0%Z.
Proof. unfold Int_part. rewrite <- (tech_up 0 1) by lra. reflexivity. Qed.
Lemma sph_rotation : rotation Sphere (sph_atoms 0) first_turn = M3 (V3 1 0 0) (V3 0 0 (-1)) (V3 0 1 0).
Proof.
  cbn [rotation]. unfold sphere_rotation, first_turn, o1, o2. cbn [fst snd]. change ((1 =? 0)%Z && (0 =? 0)%Z)%bool with false. cbv iota.
  unfold s_mode, sph_atoms. cbn [cell sph_cell]. destruct (Rle_dec 0 0) as [_|N]; [|lra]. rewrite int0. cbn [Z.eqb]. cbv zeta.
  unfold s_angle1, s_angle2, s_n1, s_n2. cbn [cell sph_cell].
  replace (vadd (vscale (PI / 2 * 1) (V3 1 0 0)) (vscale (PI / 2 * 0) (V3 0 1 0))) with (V3 (PI / 2) 0 0) by (vunf; apply v3_eq; cbn; ring).
  replace ((PI / 2 * 1) ^ 2 + (PI / 2 * 0) ^ 2 + 2 * (PI / 2 * 1) * (PI / 2 * 0) * vdot (V3 1 0 0) (V3 0 1 0)) with (Rsqr (PI / 2)) by (unfold Rsqr; vunf; ring).
  pose proof PI2_3_2 as P. rewrite sqrt_Rsqr by lra. unfold rotation_matrix.
  replace (vnorm (V3 (PI / 2) 0 0)) with (PI / 2).
  2:{ unfold vnorm. replace (vdot (V3 (PI / 2) 0 0) (V3 (PI / 2) 0 0)) with (Rsqr (PI / 2)) by (unfold Rsqr; vunf; ring). rewrite sqrt_Rsqr by lra. reflexivity. }
  rewrite cos_PI2, sin_PI2. unfold vscale. cbn [vx vy vz]. replace (/ (PI / 2) * (PI / 2)) with 1 by (field; lra).
  rewrite Rmult_0_r. apply m3_eq; apply v3_eq; cbn [vx vy vz row1 row2 row3]; ring.
Qed.
Lemma sphere_mode : exists a n, rotation Sphere a n = M3 (V3 1 0 0) (V3 0 0 (-1)) (V3 0 1 0) /\
  forall eig u, container_transformation eig u Sphere a true n = None.
Proof.
  exists (sph_atoms 0), first_turn. split; [apply sph_rotation|]. intros eig u. unfold container_transformation. rewrite sph_rotation.
  replace (asks_for_angles _ true) with true.
  - cbn [rotation_angles]. unfold sphere_angles, first_turn, o1, o2. cbn [fst snd]. change ((1 =? 0)%Z && (0 =? 0)%Z)%bool with false. cbv iota.
    unfold s_mode, sph_atoms. cbn [cell sph_cell]. destruct (Rle_dec 0 0) as [_|N]; [|lra]. rewrite int0. reflexivity.
  - symmetry. pose proof eps12_pos. unfold asks_for_angles. cbn [m3e comp vx vy vz row1 row2 row3].
    replace (0 + 1) with 1 by ring. rewrite Rabs_R1. replace (Rabs (0 - 1)) with 1 by (rewrite Rabs_left by lra; lra).
    rewrite near_self, (ltb_f 1), (ltb_t eps12 1) by lra. reflexivity.
Qed.
(** Chiral returns a matrix *)
Lemma chiral_matrix : exists a n, rotation Chiral a n <> eye /\ forall eig u th ph an, rotation_angles eig u Chiral a n <> Angles th ph an.
Proof.
  exists {| cell := fun i j => match i, j with 2%nat, O => PI / 2 | _, _ => 1 end; pbc := (false, false, true); pos := []; slabx := (0, 0) |}, one_turn.
  split; [|intros; discriminate]. cbn [rotation]. unfold one_turn, o3, c_angle, rotz, eye. cbn [snd cell]. rewrite Rmult_1_l, cos_PI2, sin_PI2.
  intros E. injection E as ? ? ?. lra.
Qed.
