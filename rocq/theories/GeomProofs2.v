(** Symmetry containers: group action, rigidity, ranges, copies. *)
From Coq Require Import Reals Lra Lia ZArith List Bool.
From Verif Require Import GeomModel GeomSpec GeomProofs.
Import ListNotations.
Require Import ZifyBool.
Ltac Zify.zify_post_hook ::= Z.div_mod_to_equations.
Open Scope R_scope.

Lemma mv_vadd m r s : mv m (vadd r s) = vadd (mv m r) (mv m s).
Proof. vunf. apply v3_eq; cbn; ring. Qed.
Lemma mv_rotz_z t z : mv (rotz t) (V3 0 0 z) = V3 0 0 z.
Proof. unfold rotz. vunf. apply v3_eq; cbn; ring. Qed.
Lemma mv_roty_y t y : mv (roty t) (V3 0 y 0) = V3 0 y 0.
Proof. unfold roty. vunf. apply v3_eq; cbn; ring. Qed.
Lemma vadd_assoc a b c : vadd (vadd a b) c = vadd a (vadd b c).
Proof. vunf. apply v3_eq; cbn; ring. Qed.
Lemma vadd_zero_r a : vadd a vzero = a.
Proof. vunf. destruct a. apply v3_eq; cbn; ring. Qed.

(** a screw motion about z *)
Definition screw (t h : R) (r : v3) : v3 := vadd (mv (rotz t) r) (V3 0 0 h).
Lemma screw_comp t h u k r : screw t h (screw u k r) = screw (t + u) (h + k) r.
Proof.
  unfold screw. rewrite mv_vadd, <- mv_mm, rotz_plus, mv_rotz_z, vadd_assoc. f_equal.
  vunf. apply v3_eq; cbn; ring.
Qed.
Lemma screw_0 r : screw 0 0 r = r.
Proof. unfold screw. rewrite rotz_0, mv_eye. vunf. destruct r. apply v3_eq; cbn; ring. Qed.

Definition screwy (t h : R) (r : v3) : v3 := vadd (mv (roty t) r) (V3 0 h 0).
Lemma screwy_comp t h u k r : screwy t h (screwy u k r) = screwy (t + u) (h + k) r.
Proof.
  unfold screwy. rewrite mv_vadd, <- mv_mm, roty_plus, mv_roty_y, vadd_assoc. f_equal.
  vunf. apply v3_eq; cbn; ring.
Qed.
Lemma screwy_0 r : screwy 0 0 r = r.
Proof. unfold screwy. rewrite roty_0, mv_eye. vunf. destruct r. apply v3_eq; cbn; ring. Qed.

Ltac opz := unfold op_add, o1, o2, o3; cbn [fst snd]; rewrite ?plus_IZR.

Lemma group_action c a r n m : additive c ->
  transform c a (transform c a r n) m = transform c a r (op_add n m).
Proof.
  destruct n as [[n1 n2] n3], m as [[m1 m2] m3].
  destruct c; cbn [additive]; intros H; try contradiction; clear H; unfold transform, rotation.
  - opz. vunf. apply v3_eq; cbn; ring.
  - destruct (pbc3 a).
    + change (screw (IZR m1 * w_angle a) (IZR m3 * w_height a) (screw (IZR n1 * w_angle a) (IZR n3 * w_height a) r) =
        screw (IZR (n1 + m1) * w_angle a) (IZR (n3 + m3) * w_height a) r).
      rewrite screw_comp, !plus_IZR. f_equal; ring.
    + rewrite !vadd_zero_r, <- mv_mm, rotz_plus. opz. do 2 f_equal. ring.
  - change (screw (IZR m3 * c_angle a) (IZR m3 * c_height a) (screw (IZR n3 * c_angle a) (IZR n3 * c_height a) r) =
        screw (IZR (n3 + m3) * c_angle a) (IZR (n3 + m3) * c_height a) r).
    rewrite screw_comp, !plus_IZR. f_equal; ring.
  - change (screw (IZR m3 * d_angle a + IZR m1 * (PI + d_angle a * d_x a)) ((IZR m3 + IZR m1 * d_x a) * d_height a)
       (screw (IZR n3 * d_angle a + IZR n1 * (PI + d_angle a * d_x a)) ((IZR n3 + IZR n1 * d_x a) * d_height a) r) =
       screw (IZR (n3 + m3) * d_angle a + IZR (n1 + m1) * (PI + d_angle a * d_x a)) ((IZR (n3 + m3) + IZR (n1 + m1) * d_x a) * d_height a) r).
    rewrite screw_comp, !plus_IZR. f_equal; ring.
  - change (screw (IZR m1 * cw_angle a + IZR m3 * cw_twist a) (IZR m3 * cw_height a)
       (screw (IZR n1 * cw_angle a + IZR n3 * cw_twist a) (IZR n3 * cw_height a) r) =
       screw (IZR (n1 + m1) * cw_angle a + IZR (n3 + m3) * cw_twist a) (IZR (n3 + m3) * cw_height a) r).
    rewrite screw_comp, !plus_IZR. f_equal; ring.
  - destruct (pbc2 a).
    + change (screwy (IZR m1 * w_angle a) (IZR m2 * w_height a) (screwy (IZR n1 * w_angle a) (IZR n2 * w_height a) r) =
        screwy (IZR (n1 + m1) * w_angle a) (IZR (n2 + m2) * w_height a) r).
      rewrite screwy_comp, !plus_IZR. f_equal; ring.
    + rewrite !vadd_zero_r, <- mv_mm, roty_plus. opz. do 2 f_equal. ring.
  - change (screw (IZR m1 * cg_angle1 a + IZR m2 * cg_angle2 a) (IZR m1 * cg_trans1 a + IZR m2 * cg_trans2 a)
       (screw (IZR n1 * cg_angle1 a + IZR n2 * cg_angle2 a) (IZR n1 * cg_trans1 a + IZR n2 * cg_trans2 a) r) =
       screw (IZR (n1 + m1) * cg_angle1 a + IZR (n2 + m2) * cg_angle2 a) (IZR (n1 + m1) * cg_trans1 a + IZR (n2 + m2) * cg_trans2 a) r).
    rewrite screw_comp, !plus_IZR. f_equal; ring.
Qed.

(** the operation (0,0,0), for all containers *)
Lemma identity_op c a r : transform c a r (0, 0, 0)%Z = r.
Proof.
  destruct c; unfold transform, rotation, o1, o2, o3; cbn [fst snd].
  - vunf. destruct r. apply v3_eq; cbn; ring.
  - rewrite Rmult_0_l, rotz_0, mv_eye. destruct (pbc3 a); [|apply vadd_zero_r].
    rewrite Rmult_0_l. apply vadd_zero_r.
  - rewrite !Rmult_0_l, rotz_0, mv_eye. apply vadd_zero_r.
  - rewrite !Rmult_0_l, Rplus_0_r, rotz_0, mv_eye, Rmult_0_l. apply vadd_zero_r.
  - unfold sphere_rotation. cbn. apply mv_eye.
  - cbn. vunf. destruct r. apply v3_eq; cbn; ring.
  - rewrite !Rmult_0_l, Rplus_0_r, rotz_0, mv_eye. apply vadd_zero_r.
  - rewrite Rmult_0_l, roty_0, mv_eye. destruct (pbc2 a); [|apply vadd_zero_r].
    rewrite Rmult_0_l. apply vadd_zero_r.
  - reflexivity.
  - rewrite !Rmult_0_l, Rplus_0_r, rotz_0, mv_eye. apply vadd_zero_r.
Qed.

(** ** Periodicity of the finite directions *)
Lemma sin_cos_period t k : cos (t + 2 * IZR k * PI) = cos t /\ sin (t + 2 * IZR k * PI) = sin t.
Proof.
  destruct (Z_le_gt_dec 0 k) as [H|H].
  - rewrite <- (Z2Nat.id k H), <- INR_IZR_INZ. split; [apply cos_period|apply sin_period].
  - set (u := t + 2 * IZR k * PI).
    assert (E : t = u + 2 * INR (Z.to_nat (- k)) * PI).
    { unfold u. rewrite INR_IZR_INZ, Z2Nat.id, opp_IZR by lia. ring. }
    rewrite E at 1 2. rewrite cos_period, sin_period. auto.
Qed.
Lemma rotz_period t k : rotz (t + 2 * IZR k * PI) = rotz t.
Proof. unfold rotz. destruct (sin_cos_period t k) as [-> ->]. reflexivity. Qed.
Lemma roty_period t k : roty (t + 2 * IZR k * PI) = roty t.
Proof. unfold roty. destruct (sin_cos_period t k) as [-> ->]. reflexivity. Qed.

(** which direction is finite and how many operations it has *)
Lemma wedge_angle_period M k n1 ang : (0 < M)%Z -> ang = 2 * PI / IZR M ->
  IZR (n1 + k * M) * ang = IZR n1 * ang + 2 * IZR k * PI.
Proof.
  intros HM ->. rewrite plus_IZR, mult_IZR. field. apply IZR_lt in HM. lra.
Qed.

Lemma wedge_periodic a M k r n1 n2 n3 : (0 < M)%Z -> w_angle a = 2 * PI / IZR M ->
  transform Wedge a r (n1 + k * M, n2, n3)%Z = transform Wedge a r (n1, n2, n3).
Proof.
  intros HM Ha. unfold transform, rotation, o1, o3. cbn [fst snd].
  rewrite (wedge_angle_period M k n1 _ HM Ha), rotz_period. reflexivity.
Qed.
Lemma wedgey_periodic a M k r n1 n2 n3 : (0 < M)%Z -> w_angle a = 2 * PI / IZR M ->
  transform WedgeYAxis a r (n1 + k * M, n2, n3)%Z = transform WedgeYAxis a r (n1, n2, n3).
Proof.
  intros HM Ha. unfold transform, rotation, o1, o2. cbn [fst snd].
  rewrite (wedge_angle_period M k n1 _ HM Ha), roty_period. reflexivity.
Qed.
Lemma chiralwedge_periodic a M k r n1 n2 n3 : (0 < M)%Z -> Rabs (cw_angle a) = 2 * PI / IZR M ->
  transform ChiralWedge a r (n1 + k * M, n2, n3)%Z = transform ChiralWedge a r (n1, n2, n3).
Proof.
  intros HM Ha. unfold transform, rotation, o1, o3. cbn [fst snd]. do 2 f_equal.
  unfold Rabs in Ha. destruct (Rcase_abs (cw_angle a)).
  - assert (E : IZR (n1 + k * M) * cw_angle a = IZR n1 * cw_angle a + 2 * IZR (- k) * PI).
    { pose proof (wedge_angle_period M k n1 _ HM Ha) as P. rewrite opp_IZR. lra. }
    rewrite E. replace (IZR n1 * cw_angle a + 2 * IZR (- k) * PI + IZR n3 * cw_twist a)
      with (IZR n1 * cw_angle a + IZR n3 * cw_twist a + 2 * IZR (- k) * PI) by ring. apply rotz_period.
  - rewrite (wedge_angle_period M k n1 _ HM Ha).
    replace (IZR n1 * cw_angle a + 2 * IZR k * PI + IZR n3 * cw_twist a)
      with (IZR n1 * cw_angle a + IZR n3 * cw_twist a + 2 * IZR k * PI) by ring. apply rotz_period.
Qed.

(** DoubleChiral: the first operation twice is the third one 2x times *)
Lemma doublechiral_square a r k n2 n3 x2 : IZR x2 = 2 * d_x a ->
  transform DoubleChiral a r (k + 2, n2, n3)%Z = transform DoubleChiral a r (k, n2, n3 + x2)%Z.
Proof.
  intros Hx. unfold transform, rotation, o1, o3. cbn [fst snd].
  rewrite !plus_IZR, Hx. f_equal.
  - f_equal.
    replace (IZR n3 * d_angle a + (IZR k + 2) * (PI + d_angle a * d_x a))
      with ((IZR n3 + 2 * d_x a) * d_angle a + IZR k * (PI + d_angle a * d_x a) + 2 * IZR 1 * PI) by ring.
    apply rotz_period.
  - f_equal. ring.
Qed.

(** Slab: two reflections make translations by 2x, for lattice vectors in the xy-plane *)
Lemma slab_square a r n1 n2 m1 m2 x1 x2 : IZR x1 = 2 * fst (slabx a) -> IZR x2 = 2 * snd (slabx a) ->
  vz (cellv a 0) = 0 -> vz (cellv a 1) = 0 ->
  transform Slab a (transform Slab a r (n1, n2, 1)%Z) (m1, m2, 1)%Z =
  transform Slab a r (n1 + m1 + x1, n2 + m2 + x2, 0)%Z.
Proof.
  intros H1 H2 Z0 Z1. unfold transform, o1, o2, o3. cbn [fst snd Z.eqb Pos.eqb].
  rewrite !plus_IZR, H1, H2. vunf. destruct r as [x y z]. apply v3_eq; cbn [vx vy vz]; [ring|ring|].
  cbn [cellv vz] in Z0, Z1. unfold cellv. cbn [vz]. rewrite Z0, Z1. ring.
Qed.
Lemma slab_translations a r n1 n2 m1 m2 k : (k = 0 \/ k = 1)%Z ->
  transform Slab a (transform Slab a r (n1, n2, 0)%Z) (m1, m2, k)%Z = transform Slab a r (n1 + m1, n2 + m2, k)%Z.
Proof.
  intros [->| ->]; unfold transform, o1, o2, o3; cbn [fst snd Z.eqb Pos.eqb];
  rewrite !plus_IZR; vunf; destruct r as [x y z]; apply v3_eq; cbn [vx vy vz]; ring.
Qed.

(** ** Ranges of the wedge-like containers *)
Lemma wedge_range_unique M n : (0 < M)%Z ->
  exists k, in_range (wedge_range M) (n + k * M) = true /\
  forall k', in_range (wedge_range M) (n + k' * M) = true -> k' = k.
Proof.
  intros HM. unfold wedge_range, in_range.
  destruct (Z.eqb_spec (M mod 2) 1) as [E|E].
  - exists (- ((n + M / 2) / M))%Z. split; [nia|]. intros k' Hk. nia.
  - exists (- ((n + M / 2 - 1) / M))%Z. split; [nia|]. intros k' Hk. nia.
Qed.

Lemma wedge_range_zero M : (0 < M)%Z -> in_range (wedge_range M) 0 = true.
Proof. intros HM. unfold wedge_range, in_range. destruct (Z.eqb_spec (M mod 2) 1); lia. Qed.

Lemma pyround_IZR z : pyround (IZR z) = z.
Proof.
  assert (E : Int_part (IZR z) = z).
  { destruct (base_Int_part (IZR z)) as [H1 H2]. apply le_IZR in H1.
    assert (IZR z < IZR (Int_part (IZR z) + 1)) by (rewrite plus_IZR; lra). apply lt_IZR in H. lia. }
  unfold pyround. rewrite E. cbv zeta. rewrite (proj2 (ltb_true _ _)) by lra. reflexivity.
Qed.

Lemma angle_inv ang M : (0 < M)%Z -> ang = 2 * PI / IZR M -> 2 * PI / ang = IZR M.
Proof. intros HM ->. pose proof PI_RGT_0. apply IZR_lt in HM. field. lra. Qed.

(** every operation is equivalent to exactly one operation of the range *)
Lemma wedge_unique c a M n1 n2 n3 : (0 < M)%Z ->
  match c with Wedge | WedgeYAxis => w_angle a = 2 * PI / IZR M
             | ChiralWedge => Rabs (cw_angle a) = 2 * PI / IZR M | _ => False end ->
  let ok k := in_range (fst (fst (ranges c a))) k = true in
  exists k, ok k /\ (forall r, transform c a r (k, n2, n3) = transform c a r (n1, n2, n3)) /\
  forall k', ok k' -> (forall r, transform c a r (k', n2, n3) = transform c a r (n1, n2, n3)) -> k' = k.
Proof.
  intros HM Hc. cbv zeta.
  assert (Rg : fst (fst (ranges c a)) = wedge_range M).
  { destruct c; try contradiction; cbn [ranges fst];
    rewrite (angle_inv _ M HM Hc), pyround_IZR; reflexivity. }
  rewrite Rg. destruct (wedge_range_unique M n1 HM) as (k & Hk & Hu).
  exists (n1 + k * M)%Z. split; [exact Hk|]. split.
  - intros r. destruct c; try contradiction.
    + apply wedge_periodic; assumption.
    + apply chiralwedge_periodic; assumption.
    + apply wedgey_periodic; assumption.
  - intros k' Hk' Ht.
    (* same image of (1,0,0) resp. (0,0,1): the angles agree modulo 2 pi *)
    assert (exists j, (k' = n1 + j * M)%Z) as [j Hj].
    { assert (D : exists q, (k' - n1)%Z = (q * M)%Z); [|destruct D as [q Hq]; exists q; lia].
      assert (HM' : 0 < IZR M) by (apply IZR_lt; exact HM).
      assert (exists sg : R, (sg = 1 \/ sg = -1) /\
              cos (IZR k' * (sg * (2 * PI / IZR M)) - IZR n1 * (sg * (2 * PI / IZR M))) = 1) as (sg & Hsg & HC).
      { specialize (Ht (V3 1 0 0)).
        destruct c; try contradiction; unfold transform, rotation, o1, o2, o3 in Ht; cbn [fst snd] in Ht.
        - exists 1. split; [left; reflexivity|]. rewrite !Rmult_1_l, <- Hc.
          apply (f_equal (fun v => (vx v, vy v))) in Ht. unfold rotz in Ht. vunf.
          destruct (pbc3 a); cbn [vx vy vz] in Ht; injection Ht as E1 E2;
          rewrite cos_minus; pose proof (sincos (IZR n1 * w_angle a));
          replace (cos (IZR k' * w_angle a)) with (cos (IZR n1 * w_angle a)) by lra;
          replace (sin (IZR k' * w_angle a)) with (sin (IZR n1 * w_angle a)) by lra; lra.
        - exists (if Rcase_abs (cw_angle a) then -1 else 1).
          split; [destruct (Rcase_abs _); auto|].
          assert (Ea : (if Rcase_abs (cw_angle a) then -1 else 1) * (2 * PI / IZR M) = cw_angle a).
          { rewrite <- Hc. unfold Rabs. destruct (Rcase_abs (cw_angle a)); lra. }
          rewrite Ea. apply (f_equal (fun v => (vx v, vy v))) in Ht. unfold rotz in Ht. vunf.
          cbn [vx vy vz] in Ht. injection Ht as E1 E2.
          replace (IZR k' * cw_angle a - IZR n1 * cw_angle a) with
            ((IZR k' * cw_angle a + IZR n3 * cw_twist a) - (IZR n1 * cw_angle a + IZR n3 * cw_twist a)) by ring.
          set (u := IZR k' * cw_angle a + IZR n3 * cw_twist a) in *.
          set (v := IZR n1 * cw_angle a + IZR n3 * cw_twist a) in *.
          rewrite cos_minus. pose proof (sincos v).
          replace (cos u) with (cos v) by lra. replace (sin u) with (sin v) by lra. lra.
        - exists 1. split; [left; reflexivity|]. rewrite !Rmult_1_l, <- Hc.
          apply (f_equal (fun v => (vx v, vz v))) in Ht. unfold roty in Ht. vunf.
          destruct (pbc2 a); cbn [vx vy vz] in Ht; injection Ht as E1 E2;
          rewrite cos_minus; pose proof (sincos (IZR n1 * w_angle a));
          replace (cos (IZR k' * w_angle a)) with (cos (IZR n1 * w_angle a)) by lra;
          replace (sin (IZR k' * w_angle a)) with (sin (IZR n1 * w_angle a)) by lra; lra. }
      (* cos (d * 2 pi / M) = 1 means M divides d *)
      assert (HC2 : cos (IZR (k' - n1) * (2 * PI / IZR M)) = 1).
      { rewrite <- HC. destruct Hsg as [-> | ->].
        - f_equal. rewrite minus_IZR. ring.
        - rewrite <- cos_neg. f_equal. rewrite minus_IZR. ring. }
      set (d := (k' - n1)%Z) in *.
      assert (Hs : sin (IZR d * (PI / IZR M)) = 0).
      { assert (E : IZR d * (2 * PI / IZR M) = 2 * (IZR d * (PI / IZR M))) by (field; lra).
        rewrite E, cos_2a_sin in HC2. nra. }
      apply sin_eq_0_0 in Hs. destruct Hs as [q Hq]. exists q.
      apply eq_IZR. rewrite mult_IZR. pose proof PI_RGT_0.
      apply Rmult_eq_reg_r with (PI / IZR M); [|apply Rgt_not_eq; apply Rdiv_lt_0_compat; lra].
      rewrite Hq. field. lra. }
    subst k'. f_equal. f_equal. apply Hu. exact Hk'.
Qed.

(** ** Rigidity *)
Lemma mpow_rotation m k : forall acc, is_rotation m -> is_rotation acc -> is_rotation (mpow m k acc).
Proof. induction k; cbn [mpow]; intros acc Hm Ha; [exact Ha|]. apply IHk; [exact Hm|]. apply is_rotation_mm; assumption. Qed.
Lemma mpow_r_rotation m k : forall acc, is_rotation m -> is_rotation acc -> is_rotation (mpow_r m k acc).
Proof. induction k; cbn [mpow_r]; intros acc Hm Ha; [exact Ha|]. apply IHk; [exact Hm|]. apply is_rotation_mm; assumption. Qed.

Lemma sphere_rotation_rotation a n : sphere_defined a n -> is_rotation (sphere_rotation a n).
Proof.
  unfold sphere_rotation, sphere_defined. intros H. destruct (_ && _)%bool; [apply is_rotation_eye|].
  destruct (s_mode a =? 3)%Z.
  - destruct H as [H1 H2].
    apply mpow_rotation; [apply rotation_matrix_rotation, H2|].
    apply mpow_rotation; [apply rotation_matrix_rotation, H1|].
    apply mpow_r_rotation; [|apply is_rotation_eye].
    apply is_rotation_mm; apply rotation_matrix_rotation; assumption.
  - apply rotation_matrix_rotation, H.
Qed.

Lemma rotation_orthogonal c a n : rigid_container c a n -> is_orthogonal (rotation c a n).
Proof.
  intros H. unfold is_orthogonal. destruct c; cbn [rotation rigid_container] in *; try contradiction;
   try (apply rotz_rotation); try (apply roty_rotation); try (apply is_rotation_eye).
  - apply sphere_rotation_rotation, H.
  - destruct (o3 n =? 0)%Z; [apply is_rotation_eye|]. vunf. apply m3_eq; apply v3_eq; cbn; ring.
Qed.

Lemma rotation_of_transform c a n r s : rigid_container c a n ->
  vsub (transform c a r n) (transform c a s n) = mv (rotation c a n) (vsub r s).
Proof.
  intros H. destruct c; cbn [rigid_container] in H; try contradiction; rewrite mv_vsub; unfold transform.
  - cbn [rotation]. rewrite !mv_eye. vunf. apply v3_eq; cbn; ring.
  - set (m := rotation Wedge a n). destruct (pbc3 a); vunf; apply v3_eq; cbn; ring.
  - set (m := rotation Chiral a n). vunf; apply v3_eq; cbn; ring.
  - set (m := rotation DoubleChiral a n). vunf; apply v3_eq; cbn; ring.
  - reflexivity.
  - cbn [rotation]. destruct H as [->| ->]; cbn [Z.eqb Pos.eqb]; vunf; apply v3_eq; cbn; ring.
  - set (m := rotation ChiralWedge a n). vunf; apply v3_eq; cbn; ring.
  - set (m := rotation WedgeYAxis a n). destruct (pbc2 a); vunf; apply v3_eq; cbn; ring.
  - set (m := rotation ChiralGeneral a n). vunf; apply v3_eq; cbn; ring.
Qed.

Lemma transform_rigid c a n : rigid_container c a n -> rigid (fun r => transform c a r n).
Proof.
  intros H r s. unfold dist. rewrite rotation_of_transform by exact H. apply orth_norm, rotation_orthogonal, H.
Qed.

(** ** TwistAndTurn in polar coordinates *)
Lemma tat_polar a rho phi z b t : 0 < rho ->
  tat_arbitrary a (cyl rho phi z) b t =
  cyl (t_R a + (rho - t_R a) * cos t + z * sin t) (phi + b) (z * cos t - (rho - t_R a) * sin t).
Proof.
  intros Hr. unfold tat_arbitrary. set (Q := t_R a). clearbody Q.
  assert (SC := sincos phi).
  assert (N : vnorm (V3 (vx (cyl rho phi z)) (vy (cyl rho phi z)) 0) = rho).
  { unfold vnorm, vdot, cyl. cbn [vx vy vz].
    replace (rho * cos phi * (rho * cos phi) + rho * sin phi * (rho * sin phi) + 0 * 0) with (rho * rho * (sin phi * sin phi + cos phi * cos phi)) by ring.
    rewrite SC, Rmult_1_r. apply sqrt_square. lra. }
  rewrite N.
  assert (A : vcross (V3 0 0 1) (cyl rho phi z) = V3 (- (rho * sin phi)) (rho * cos phi) 0).
  { unfold cyl. vunf. apply v3_eq; cbn; ring. }
  rewrite A.
  assert (NA : vnorm (V3 (- (rho * sin phi)) (rho * cos phi) 0) = rho).
  { unfold vnorm, vdot. cbn [vx vy vz].
    replace (- (rho * sin phi) * - (rho * sin phi) + rho * cos phi * (rho * cos phi) + 0 * 0) with (rho * rho * (sin phi * sin phi + cos phi * cos phi)) by ring.
    rewrite SC, Rmult_1_r. apply sqrt_square. lra. }
  assert (AZ : V3 (- (rho * sin phi)) (rho * cos phi) 0 <> vzero).
  { intros E. injection E as E1 E2. assert (sin phi = 0) by nra. assert (cos phi = 0) by nra. rewrite H, H0 in SC. lra. }
  set (Rv := vscale (Q / rho) (V3 (vx (cyl rho phi z)) (vy (cyl rho phi z)) 0)).
  assert (ERv : Rv = V3 (Q * cos phi) (Q * sin phi) 0).
  { unfold Rv, cyl. vunf. apply v3_eq; cbn; field; lra. }
  rewrite ERv.
  rewrite (rotation_matrix_perp (V3 (- (rho * sin phi)) (rho * cos phi) 0)); [|exact AZ|].
  2:{ unfold cyl. vunf. ring. }
  rewrite NA.
  assert (NB : vnorm (V3 0 0 1) = 1).
  { unfold vnorm, vdot. cbn [vx vy vz]. replace (0 * 0 + 0 * 0 + 1 * 1) with 1 by ring. apply sqrt_1. }
  rewrite rotation_matrix_rotm, NB.
  replace (vscale (/ 1) (V3 0 0 1)) with (V3 0 0 1) by (vunf; apply v3_eq; cbn; field).
  rewrite <- rotz_rotm. unfold rotz, cyl. rewrite cos_plus, sin_plus.
  assert (S2 : sin phi * sin phi = 1 - cos phi * cos phi) by lra.
  vunf. apply v3_eq; cbn [vx vy vz].
  - field. lra.
  - field. lra.
  - transitivity (cos t * z + sin t * - (rho - Q) * (sin phi * sin phi + cos phi * cos phi)); [field; lra|].
    rewrite SC. ring.
Qed.

Lemma torus_radius Q rho z t : 0 < Q -> (rho - Q) ^ 2 + z ^ 2 < Q ^ 2 -> 0 < Q + (rho - Q) * cos t + z * sin t.
Proof.
  intros HQ H. pose proof (sincos t) as SC.
  set (u := rho - Q) in *. set (c := cos t) in *. set (s := sin t) in *.
  assert (B : (u * c + z * s) ^ 2 <= u ^ 2 + z ^ 2).
  { replace (u ^ 2 + z ^ 2) with ((u * c + z * s) ^ 2 + (u * s - z * c) ^ 2 + (u^2 + z^2) * (1 - (s * s + c * c))) by ring.
    rewrite SC. pose proof (pow2_ge_0 (u * s - z * c)). replace ((u ^ 2 + z ^ 2) * (1 - 1)) with 0 by ring. lra. }
  destruct (Rlt_dec 0 (Q + u * c + z * s)) as [|N]; [assumption|exfalso].
  assert (u * c + z * s <= - Q) by lra. nra.
Qed.

Lemma tat_action a r n m : in_torus a r ->
  transform TwistAndTurn a (transform TwistAndTurn a r n) m = transform TwistAndTurn a r (op_add n m) /\
  in_torus a (transform TwistAndTurn a r n).
Proof.
  destruct n as [[n1 n2] n3], m as [[m1 m2] m3].
  intros (rho & phi & Er & Hrho & HQ & Hin).
  set (z := vz r) in *. set (Q := t_R a) in *.
  (* all operations in one formula, including 0 *)
  assert (F : forall rho phi z k, 0 < rho ->
     transform TwistAndTurn a (cyl rho phi z) (n1, n2, k) =
     cyl (Q + (rho - Q) * cos (IZR k * t_twist a) + z * sin (IZR k * t_twist a)) (phi + IZR k * t_bend a)
         (z * cos (IZR k * t_twist a) - (rho - Q) * sin (IZR k * t_twist a)) /\
     transform TwistAndTurn a (cyl rho phi z) (m1, m2, k) = transform TwistAndTurn a (cyl rho phi z) (n1, n2, k) /\
     transform TwistAndTurn a (cyl rho phi z) (n1 + m1, n2 + m2, k)%Z = transform TwistAndTurn a (cyl rho phi z) (n1, n2, k)).
  { intros rho0 phi0 z0 k H0. cbn [transform]. unfold o3. cbn [snd].
    destruct (Z.eqb_spec k 0) as [->|Hk]; [|split; [apply tat_polar, H0|split; reflexivity]].
    split; [|split; reflexivity]. rewrite !Rmult_0_l, cos_0, sin_0. unfold cyl. apply v3_eq; cbn [vx vy vz].
    - rewrite Rplus_0_r. ring.
    - rewrite Rplus_0_r. ring.
    - ring. }
  pose proof (torus_radius Q rho z (IZR n3 * t_twist a) HQ Hin) as P1.
  destruct (F rho phi z n3 Hrho) as [F1 _]. rewrite Er, F1.
  set (rho1 := Q + (rho - Q) * cos (IZR n3 * t_twist a) + z * sin (IZR n3 * t_twist a)) in *.
  set (z1 := z * cos (IZR n3 * t_twist a) - (rho - Q) * sin (IZR n3 * t_twist a)) in *.
  split.
  - destruct (F rho1 (phi + IZR n3 * t_bend a) z1 m3 P1) as (F2 & F3 & _). rewrite F3, F2.
    unfold op_add, o1, o2, o3. cbn [fst snd].
    destruct (F rho phi z (n3 + m3)%Z Hrho) as (F4 & _ & F5). rewrite F5, F4.
    rewrite plus_IZR. 
    replace ((IZR n3 + IZR m3) * t_twist a) with (IZR n3 * t_twist a + IZR m3 * t_twist a) by ring.
    rewrite cos_plus, sin_plus. unfold rho1, z1. f_equal; ring.
  - exists rho1, (phi + IZR n3 * t_bend a). cbn [vz cyl]. split; [reflexivity|]. split; [exact P1|]. split; [exact HQ|].
    fold Q. replace ((rho1 - Q) ^ 2 + z1 ^ 2) with (((rho - Q) ^ 2 + z ^ 2) *
      (sin (IZR n3 * t_twist a) * sin (IZR n3 * t_twist a) + cos (IZR n3 * t_twist a) * cos (IZR n3 * t_twist a)))
      by (unfold rho1, z1; ring).
    rewrite sincos, Rmult_1_r. exact Hin.
Qed.

(** TwistAndTurn operations are not rigid and differ from their rotation matrix *)
Definition tat_witness : atoms :=
  {| cell := fun i j => match i, j with 0%nat, 2%nat => PI | 1%nat, 2%nat => 1 | _, _ => 0 end;
     pbc := (false, false, true); pos := []; slabx := (0, 0) |}.

Lemma tat_witness_R : t_R tat_witness = 1.
Proof.
  unfold t_R, tat_witness. cbn. rewrite Rabs_R1. rewrite (proj2 (ltb_false _ _)); [reflexivity|].
  unfold e16. rewrite <- Rinv_1. apply Rinv_le_contravar; lra.
Qed.

Lemma tat_witness_op rho phi : 0 < rho ->
  transform TwistAndTurn tat_witness (cyl rho phi 0) (0, 0, 1)%Z = cyl (2 - rho) phi 0.
Proof.
  intros H. cbn [transform]. unfold o3. cbn [snd Z.eqb]. rewrite tat_polar by exact H. rewrite tat_witness_R.
  unfold t_twist, t_bend, tat_witness. cbn. rewrite !Rmult_1_l, cos_PI, sin_PI.
  f_equal; ring.
Qed.

Lemma tat_not_rigid : exists a n, ~ rigid (fun r => transform TwistAndTurn a r n) /\
  exists r s, in_torus a r /\ in_torus a s /\
  vsub (transform TwistAndTurn a r n) (transform TwistAndTurn a s n) <> mv (rotation TwistAndTurn a n) (vsub r s).
Proof.
  exists tat_witness, (0, 0, 1)%Z.
  assert (T1 : transform TwistAndTurn tat_witness (V3 (/2) 0 0) (0, 0, 1)%Z = V3 (3/2) 0 0).
  { replace (V3 (/2) 0 0) with (cyl (/2) 0 0) by (unfold cyl; rewrite cos_0, sin_0; apply v3_eq; cbn; ring).
    rewrite tat_witness_op by lra. unfold cyl. rewrite cos_0, sin_0. apply v3_eq; cbn; lra. }
  assert (T2 : transform TwistAndTurn tat_witness (V3 0 (/2) 0) (0, 0, 1)%Z = V3 0 (3/2) 0).
  { replace (V3 0 (/2) 0) with (cyl (/2) (PI/2) 0) by (unfold cyl; rewrite cos_PI2, sin_PI2; apply v3_eq; cbn; ring).
    rewrite tat_witness_op by lra. unfold cyl. rewrite cos_PI2, sin_PI2. apply v3_eq; cbn; lra. }
  split.
  - intros H. specialize (H (V3 (/2) 0 0) (V3 0 (/2) 0)). cbv beta in H. rewrite T1, T2 in H.
    unfold dist, vnorm, vsub, vdot in H. cbn [vx vy vz] in H.
    apply sqrt_inj in H; lra.
  - exists (V3 (/2) 0 0), (V3 0 (/2) 0).
    split; [|split].
    + exists (/2), 0. rewrite tat_witness_R. unfold cyl. cbn [vz]. rewrite cos_0, sin_0. repeat split; try lra.
      apply v3_eq; cbn; ring.
    + exists (/2), (PI/2). rewrite tat_witness_R. unfold cyl. cbn [vz]. rewrite cos_PI2, sin_PI2. repeat split; try lra.
      apply v3_eq; cbn; ring.
    + rewrite T1, T2. intros E. apply (f_equal vx) in E. revert E.
      cbn [rotation]. unfold o3. cbn [snd Z.eqb]. rewrite mv_mm.
      unfold t_bend, t_twist, tat_witness. cbn [cell]. rewrite Rmult_1_l, Rmult_0_r.
      replace (0 / 2) with 0 by field. rewrite sin_0, cos_0.
      rewrite !rotation_matrix_rotm.
      assert (N1 : vnorm (V3 0 0 1) = 1).
      { unfold vnorm, vdot. cbn [vx vy vz]. replace (0 * 0 + 0 * 0 + 1 * 1) with 1 by ring. apply sqrt_1. }
      assert (N2 : vnorm (V3 (-0) 1 0) = 1).
      { unfold vnorm, vdot. cbn [vx vy vz]. replace (-0 * -0 + 1 * 1 + 0 * 0) with 1 by ring. apply sqrt_1. }
      rewrite N1, N2. unfold rotm. rewrite cos_0, sin_0, cos_PI, sin_PI, Rinv_1. vunf. lra.
Qed.

(** ** Sphere: operations about different axes do not add up *)
Definition sphere_witness : atoms :=
  {| cell := fun i j => match i, j with 0%nat, 1%nat => PI/2 | 0%nat, 2%nat => PI/2
                      | 1%nat, 0%nat => 1 | 2%nat, 1%nat => 1 | 1%nat, 2%nat => 3 | _, _ => 0 end;
     pbc := (true, true, false); pos := []; slabx := (0, 0) |}.

(** ** extended_copy *)
Lemma zrange_length s k : length (zrange s k) = k.
Proof. revert s. induction k; intros; cbn; [reflexivity|]. f_equal. apply IHk. Qed.
Lemma zrange_in s k z : In z (zrange s k) <-> (s <= z < s + Z.of_nat k)%Z.
Proof.
  revert s. induction k as [|k IH]; intros s; [cbn; lia|]. cbn [zrange In]. rewrite IH. lia.
Qed.
Lemma zrange_nodup s k : NoDup (zrange s k).
Proof.
  revert s. induction k as [|k IH]; intros s; cbn [zrange]; constructor; [|apply IH].
  rewrite zrange_in. lia.
Qed.

Lemma ops_of_count r k : (0 < k)%Z -> range_ok r k ->
  match r with Fin lo hi => (lo <= 0 <= hi)%Z /\ (- hi <= lo + 1)%Z /\ (hi <= 1 - lo)%Z | Full => True end ->
  exists l, ops_of r (Count k) = Some l /\ length l = Z.to_nat k /\ NoDup l /\
  (forall z, In z l -> in_range r z = true) /\
  (In 0%Z l <-> (r = Full \/ 1 < k \/ match r with Fin lo _ => lo = 0 | Full => True end)%Z).
Proof.
  intros Hk Hok Hr. cbn [ops_of]. rewrite (proj2 (Z.ltb_lt 0 k) Hk).
  destruct r as [|lo hi]; eexists; (split; [reflexivity|]); rewrite zrange_length;
   (split; [reflexivity|split; [apply zrange_nodup|split]]).
  - reflexivity.
  - rewrite zrange_in. split; [auto|lia].
  - intros z Hz. rewrite zrange_in in Hz. cbn [in_range range_ok] in *. lia.
  - rewrite zrange_in. cbn [range_ok] in Hok. split.
    + intros H. right. lia.
    + intros [H|H]; [discriminate|lia].
Qed.
