From Coq Require Import FunctionalExtensionality Reals ZArith List Bool Arith Lia Lra Psatz.
From Verif Require Import GeomModel GeomSpec GeomProofs GeomProofs2 SysSpec AidModel AidSpec.
Import ListNotations.
Open Scope R_scope.

(** ** bending *)
Lemma roty0 p : rotate_y 0 p = p.
Proof. destruct p as [px py pz]. unfold rotate_y, roty, mv, vdot. cbn [row1 row2 row3 vx vy vz]. rewrite cos_0, sin_0. f_equal; ring. Qed.
Lemma bending_spec c pbc ps angle radius rotation r an h pz :
  setup_bending c pbc ps angle radius rotation = Some (r, an, h, pz) ->
  r = map (bent angle radius (c 2%nat 2%nat) 0) ps /\ an = angle /\ h = c 1%nat 1%nat /\ pbc = (false, pz, true) /\ (forall p, In p ps -> 0 <= vz p).
Proof.
  unfold setup_bending. destruct pbc as [[p1 p2] p3]. cbv zeta. destruct (ltb _ _); [discriminate|]. destruct (negb p3 || p1) eqn:P; [discriminate|].
  destruct (existsb _ _) eqn:X; [discriminate|]. intros E. injection E as E1 E2 E3 E4. subst. apply orb_false_elim in P as [P1 P2]. apply negb_false_iff in P1. subst.
  split; [|repeat split].
  - rewrite map_map. apply map_ext. intros p. unfold bent. rewrite roty0. reflexivity.
  - intros p Hp. destruct (Rle_dec 0 (vz p)) as [L|N]; [exact L|]. exfalso.
    assert (T : existsb (fun q => ltb (vy q) 0) (map lie_down ps) = true); [|rewrite T in X; discriminate].
    apply existsb_exists. exists (lie_down p). split; [apply in_map; exact Hp|]. apply ltb_true. unfold lie_down. cbn [vy]. lra.
Qed.
(** translations along the tube become rotations of the wedge *)
Lemma bent_image c angle radius p l k pz : orthorhombic c -> c 2%nat 2%nat <> 0 -> (pz = true \/ l = 0%Z) ->
  bent angle radius (c 2%nat 2%nat) 0 (shifted (c 1%nat 1%nat) (c 2%nat 2%nat) p l k) = transform Wedge (wedge angle (c 1%nat 1%nat) pz) (bent angle radius (c 2%nat 2%nat) 0 p) (k, 0, - l)%Z.
Proof.
  intros _ Hc Hl. unfold bent. rewrite !roty0. unfold shifted, lie_down, transform, rotation, pbc3, w_angle, w_height, wedge, o1, o3, vadd, mv, rotz, vdot. cbn [vx vy vz cell pbc fst snd row1 row2 row3].
  rewrite Rplus_0_r. replace ((vz p + IZR k * c 2%nat 2%nat) * angle / c 2%nat 2%nat) with (vz p * angle / c 2%nat 2%nat + IZR k * angle) by (field; exact Hc).
  rewrite cos_plus, sin_plus. destruct Hl as [-> | ->]; [|destruct pz]; unfold vzero; cbn [vx vy vz]; rewrite ?opp_IZR; f_equal; ring.
Qed.
Lemma bending_images c pbc ps angle radius rotation r an h pz : orthorhombic c -> 0 < c 2%nat 2%nat ->
  setup_bending c pbc ps angle radius rotation = Some (r, an, h, pz) ->
  forall i p l k, nth_error ps i = Some p -> (pz = true \/ l = 0%Z) -> exists q, nth_error r i = Some q /\
    transform Wedge (wedge an h pz) q (k, 0, - l)%Z = bent angle radius (c 2%nat 2%nat) 0 (shifted (c 1%nat 1%nat) (c 2%nat 2%nat) p l k).
Proof.
  intros Ho Hc E i p l k Hp Hl. destruct (bending_spec _ _ _ _ _ _ _ _ _ _ E) as (-> & -> & -> & _ & _).
  exists (bent angle radius (c 2%nat 2%nat) 0 p). split; [rewrite nth_error_map, Hp; reflexivity|]. symmetry. apply bent_image; [exact Ho|lra|exact Hl].
Qed.
(** lengths: atoms at the same height x over the neutral surface *)
Lemma bent_distance angle radius Lz p q : vx p = vx q -> Lz <> 0 ->
  dist (bent angle radius Lz 0 p) (bent angle radius Lz 0 q) ^ 2 = (vy p - vy q) ^ 2 + (2 * (vx p + radius) * sin ((vz p - vz q) * angle / (2 * Lz))) ^ 2.
Proof.
  intros E HL. unfold bent. rewrite !roty0. unfold lie_down. cbn [vx vy vz]. unfold dist, vnorm. rewrite <- Rsqr_pow2, Rsqr_sqrt; [|unfold vdot; nra].
  unfold vdot, vsub. cbn [vx vy vz]. rewrite <- E. set (A := vz p * angle / Lz). set (B := vz q * angle / Lz).
  replace ((vz p - vz q) * angle / (2 * Lz)) with ((A - B) / 2) by (unfold A, B; field; exact HL).
  assert (S : (2 * sin ((A - B) / 2)) ^ 2 = 2 - 2 * cos (A - B)).
  { pose proof (cos_2a_sin ((A - B) / 2)) as C. replace (2 * ((A - B) / 2)) with (A - B) in C by field. nra. }
  replace ((2 * (vx p + radius) * sin ((A - B) / 2)) ^ 2) with ((vx p + radius) ^ 2 * (2 * sin ((A - B) / 2)) ^ 2) by ring. rewrite S, cos_minus.
  pose proof (sin2_cos2 A) as T1. pose proof (sin2_cos2 B) as T2. unfold Rsqr in T1, T2.
  replace (((vx p + radius) * cos A - (vx p + radius) * cos B) * ((vx p + radius) * cos A - (vx p + radius) * cos B) + ((vx p + radius) * sin A - (vx p + radius) * sin B) * ((vx p + radius) * sin A - (vx p + radius) * sin B) + (- vy p - - vy q) * (- vy p - - vy q))
    with ((vx p + radius) ^ 2 * ((sin A * sin A + cos A * cos A) + (sin B * sin B + cos B * cos B) - 2 * (cos A * cos B + sin A * sin B)) + (vy p - vy q) ^ 2) by ring.
  rewrite T1, T2. ring.
Qed.
(** the rotation asked for is ignored *)
Lemma rotation_ignored c pbc ps angle radius rotation : setup_bending c pbc ps angle radius rotation = setup_bending c pbc ps angle radius 0.
Proof. reflexivity. Qed.
Lemma rotation_refuted : exists c pbc ps angle radius rotation r an h pz, orthorhombic c /\ 0 < c 2%nat 2%nat /\
  setup_bending c pbc ps angle radius rotation = Some (r, an, h, pz) /\ r <> map (bent angle radius (c 2%nat 2%nat) rotation) ps.
Proof.
  exists unit3, (false, false, true), [V3 1 0 0], (PI / 4), 1, PI.
  assert (D : ltb (/ 10 ^ 10) (Rabs (unit3 0%nat 0%nat * unit3 1%nat 1%nat * unit3 2%nat 2%nat - Rabs (det3 unit3))) = false).
  { apply ltb_false. unfold det3, unit3. cbn [Nat.eqb]. replace (1 * (1 * 1 - 0 * 0) - 0 * (0 * 1 - 0 * 0) + 0 * (0 * 0 - 1 * 0)) with 1 by ring. rewrite Rabs_R1. replace (1 * 1 * 1 - 1) with 0 by ring. rewrite Rabs_R0. apply Rlt_le, Rinv_0_lt_compat. lra. }
  eexists _, _, _, _. split; [|split; [unfold unit3; cbn [Nat.eqb]; lra|]].
  - intros i j _ _ N. unfold unit3. destruct (Nat.eqb_spec i j); [contradiction|reflexivity].
  - split.
    + unfold setup_bending. rewrite D. cbn [negb orb]. cbv zeta. cbn [map existsb lie_down vy vx vz orb].
      assert (L : ltb 0 0 = false) by (apply ltb_false; lra). rewrite L. cbn [orb]. reflexivity.
    + cbn [map]. unfold bent, lie_down, rotate_y, mv, roty, vdot, unit3. cbn [vx vy vz row1 row2 row3 Nat.eqb]. rewrite cos_PI, sin_PI.
      replace (0 * (PI / 4) / 1) with 0 by field. replace ((0 * 1 + 1 * 0 + 0 * - 0) * (PI / 4) / 1) with 0 by field. rewrite cos_0.
      intros E. assert (F : vx (nth 0 [V3 ((1 + 1) * 1) ((1 + 1) * sin 0) (- 0)] vzero) = vx (nth 0 [V3 ((-1 * 1 + 0 * 0 + 0 * - 0 + 1) * 1) ((-1 * 1 + 0 * 0 + 0 * - 0 + 1) * sin 0) (- (0) * 1 + 0 * 0 + -1 * - 0)] vzero)).
      { rewrite E. reflexivity. }
      cbn in F. lra.
Qed.
(** sheared cells pass the test for orthorhombic cells *)
Lemma sheared_refuted : exists c ps angle radius r an h pz, c 2%nat 0%nat <> 0 /\ 0 < c 2%nat 2%nat /\
  setup_bending c (false, false, true) ps angle radius 0 = Some (r, an, h, pz) /\
  exists p q, nth_error ps 0 = Some p /\ nth_error r 0 = Some q /\
    transform Wedge (wedge an h pz) q (1, 0, 0)%Z <> bent angle radius (c 2%nat 2%nat) 0 (vadd p (V3 (c 2%nat 0%nat) (c 2%nat 1%nat) (c 2%nat 2%nat))).
Proof.
  exists (fun i j => match i, j with 2%nat, 0%nat => 1 | _, _ => unit3 i j end), [V3 0 0 0], (PI / 2), 1.
  set (c := fun i j : nat => match i, j with 2%nat, 0%nat => 1 | _, _ => unit3 i j end).
  assert (D : ltb (/ 10 ^ 10) (Rabs (c 0%nat 0%nat * c 1%nat 1%nat * c 2%nat 2%nat - Rabs (det3 c))) = false).
  { apply ltb_false. unfold det3, c, unit3. cbn [Nat.eqb]. replace (1 * (1 * 1 - 0 * 0) - 0 * (0 * 1 - 0 * 1) + 0 * (0 * 0 - 1 * 1)) with 1 by ring. rewrite Rabs_R1. replace (1 * 1 * 1 - 1) with 0 by ring. rewrite Rabs_R0. apply Rlt_le, Rinv_0_lt_compat. lra. }
  eexists _, _, _, _. split; [unfold c; lra|]. split; [unfold c, unit3; cbn [Nat.eqb]; lra|]. split.
  - unfold setup_bending. rewrite D. cbn [negb orb]. cbv zeta. cbn [map existsb lie_down vy vx vz orb].
    assert (L : ltb 0 0 = false) by (apply ltb_false; lra). rewrite L. cbn [orb]. reflexivity.
  - eexists _, _. split; [reflexivity|]. split; [reflexivity|]. unfold bent. rewrite roty0. unfold c, unit3, lie_down, transform, rotation, pbc3, w_angle, w_height, wedge, o1, o3, vadd, mv, rotz, vdot. cbn [vx vy vz cell pbc fst snd row1 row2 row3 Nat.eqb].
    intros E. apply (f_equal vy) in E. cbn [vy] in E.
    replace (0 * (PI / 2) / 1) with 0 in E by field. replace ((0 + 1) * (PI / 2) / 1) with (PI / 2) in E by field. clear D. unfold vzero in E. cbn [vy] in E. rewrite Rmult_1_l, cos_0, sin_0, sin_PI2, cos_PI2 in E. clear c. lra.
Qed.
(** ** saddles *)
Lemma sad_vy1 : V3 0 1 0 <> vzero. Proof. intros E. apply (f_equal vy) in E. cbn in E. lra. Qed.
Lemma sad_vx1 : V3 1 0 0 <> vzero. Proof. intros E. apply (f_equal vx) in E. cbn in E. lra. Qed.
Lemma sad_step_diff Rs a1 a2 r s : vsub (sad_step Rs a1 a2 r) (sad_step Rs a1 a2 s) = mv (mm (sad_rot2 a2) (sad_rot1 a1)) (vsub r s).
Proof.
  unfold sad_step. cbv zeta. rewrite mv_mm, (mv_vsub (sad_rot1 a1)), !mv_vsub. apply v3_eq; unfold vsub, vadd; cbn [vx vy vz]; ring.
Qed.
Lemma iter_S (A : Type) (f : A -> A) k x : Nat.iter (S k) f x = f (Nat.iter k f x). Proof. reflexivity. Qed.
Lemma sad_iter_diff Rs a1 a2 : forall k r s, vsub (Nat.iter k (sad_step Rs a1 a2) r) (Nat.iter k (sad_step Rs a1 a2) s) = mv (Nat.iter k (fun rot => mm (mm (sad_rot2 a2) (sad_rot1 a1)) rot) eye) (vsub r s).
Proof.
  induction k as [|k IH]; intros r s.
  - cbn [Nat.iter nat_rect]. change (vsub r s = mv eye (vsub r s)). rewrite mv_eye. reflexivity.
  - rewrite !iter_S, sad_step_diff, IH, <- mv_mm. reflexivity.
Qed.
(** transformation and rotation of a saddle fit together *)
Lemma sad_consistent angle1 angle2 Rs r s n : vsub (sad_transform angle1 angle2 Rs r n) (sad_transform angle1 angle2 Rs s n) = mv (sad_rotation angle1 angle2 n) (vsub r s).
Proof.
  unfold sad_transform, sad_rotation. destruct ((o1 n =? o2 n) && (o2 n =? 0))%Z; [rewrite mv_eye; reflexivity|]. cbv zeta. apply sad_iter_diff.
Qed.
Lemma sad_rotation_rotation angle1 angle2 n : is_rotation (sad_rotation angle1 angle2 n).
Proof.
  unfold sad_rotation. destruct ((o1 n =? o2 n) && (o2 n =? 0))%Z; [apply is_rotation_eye|]. cbv zeta.
  generalize sad_M as k. induction k as [|k IH]; [apply is_rotation_eye|]. rewrite iter_S. apply is_rotation_mm; [|exact IH].
  apply is_rotation_mm; apply rotation_matrix_rotation; [apply sad_vx1|apply sad_vy1].
Qed.
Lemma sad_distance angle1 angle2 Rs r s n : dist (sad_transform angle1 angle2 Rs r n) (sad_transform angle1 angle2 Rs s n) = dist r s.
Proof. unfold dist. rewrite sad_consistent. apply orth_norm. apply (sad_rotation_rotation angle1 angle2 n). Qed.
Lemma rotation_matrix_0 axis : axis <> vzero -> rotation_matrix axis 0 = eye.
Proof.
  intros H. rewrite rotation_matrix_rotm. unfold rotm, eye. rewrite cos_0, sin_0. f_equal; f_equal; ring.
Qed.
Lemma sadM_pos : INR sad_M <> 0. Proof. apply not_0_INR. unfold sad_M. lia. Qed.
Lemma sad_first angle1 angle2 Rs r k : sad_transform angle1 angle2 Rs r (k, 0, 0)%Z = mv (rotation_matrix (V3 0 1 0) (angle1 * IZR k)) r.
Proof.
  unfold sad_transform, o1, o2. cbn [fst snd]. destruct (Z.eqb_spec k 0) as [->|N].
  - cbn [Z.eqb andb]. rewrite Rmult_0_r, rotation_matrix_0 by apply sad_vy1. rewrite mv_eye. reflexivity.
  - cbn [andb]. rewrite Rmult_0_r.
    assert (S : forall j, Nat.iter j (sad_step Rs (angle1 * IZR k) 0) r = mv (rotation_matrix (V3 0 1 0) (INR j * (angle1 * IZR k / INR sad_M))) r).
    { induction j as [|j IH].
      - cbn [Nat.iter nat_rect INR]. rewrite Rmult_0_l, rotation_matrix_0 by apply sad_vy1. change (r = mv eye r). rewrite mv_eye. reflexivity.
      - rewrite iter_S, IH. unfold sad_step, sad_rot2. cbv zeta. replace (0 / INR sad_M) with 0 by (unfold Rdiv; ring). rewrite (rotation_matrix_0 (V3 1 0 0)) by apply sad_vx1. rewrite mv_eye.
        rewrite S_INR, Rmult_plus_distr_r, Rmult_1_l, Rplus_comm. rewrite <- rotation_matrix_plus by apply sad_vy1. rewrite mv_mm. unfold sad_rot1.
        apply v3_eq; unfold vadd, vsub; cbn [vx vy vz]; ring. }
    rewrite S. f_equal. f_equal. field. apply sadM_pos.
Qed.
Lemma sad_second angle1 angle2 Rs r k : let A := V3 0 0 (2 * Rs) in sad_transform angle1 angle2 Rs r (0, k, 0)%Z = vadd A (mv (rotation_matrix (V3 1 0 0) (angle2 * IZR k)) (vsub r A)).
Proof.
  intros A. assert (Id : forall p, p = vadd A (vsub p A)) by (intros p; apply v3_eq; unfold vadd, vsub; cbn [vx vy vz]; ring).
  unfold sad_transform, o1, o2. cbn [fst snd]. destruct (Z.eqb_spec 0 k) as [<-|N].
  - cbn [Z.eqb andb]. rewrite Rmult_0_r, rotation_matrix_0 by apply sad_vx1. rewrite mv_eye. apply Id.
  - cbn [andb]. rewrite Rmult_0_r.
    assert (S : forall j, Nat.iter j (sad_step Rs 0 (angle2 * IZR k)) r = vadd A (mv (rotation_matrix (V3 1 0 0) (INR j * (angle2 * IZR k / INR sad_M))) (vsub r A))).
    { induction j as [|j IH].
      - cbn [INR]. rewrite Rmult_0_l, rotation_matrix_0 by apply sad_vx1. change (r = vadd A (mv eye (vsub r A))). rewrite mv_eye. apply Id.
      - rewrite iter_S, IH. unfold sad_step, sad_rot1. cbv zeta. fold A. replace (0 / INR sad_M) with 0 by (unfold Rdiv; ring). rewrite (rotation_matrix_0 (V3 0 1 0)) by apply sad_vy1. rewrite mv_eye.
        rewrite S_INR, Rmult_plus_distr_r, Rmult_1_l, Rplus_comm. rewrite <- rotation_matrix_plus by apply sad_vx1. rewrite mv_mm. unfold sad_rot2. f_equal. f_equal.
        apply v3_eq; unfold vadd, vsub; cbn [vx vy vz]; ring. }
    rewrite S. f_equal. f_equal. f_equal. field. apply sadM_pos.
Qed.
(** in each direction alone the transformations form a group *)
Lemma sad_group angle1 angle2 Rs r k l :
  sad_transform angle1 angle2 Rs (sad_transform angle1 angle2 Rs r (k, 0, 0)%Z) (l, 0, 0)%Z = sad_transform angle1 angle2 Rs r (k + l, 0, 0)%Z /\
  sad_transform angle1 angle2 Rs (sad_transform angle1 angle2 Rs r (0, k, 0)%Z) (0, l, 0)%Z = sad_transform angle1 angle2 Rs r (0, k + l, 0)%Z.
Proof.
  split.
  - rewrite !sad_first, <- mv_mm, rotation_matrix_plus by apply sad_vy1. f_equal. f_equal. rewrite plus_IZR. ring.
  - rewrite !sad_second. cbv zeta. f_equal. set (A := V3 0 0 (2 * Rs)).
    assert (Id : forall p, vsub (vadd A p) A = p) by (intros p; apply v3_eq; unfold vadd, vsub; cbn [vx vy vz]; ring).
    rewrite Id, <- mv_mm, rotation_matrix_plus by apply sad_vx1. f_equal. f_equal. rewrite plus_IZR. ring.
Qed.
Lemma iter_twice (A : Type) (f g : A -> A) : (forall x, f (f x) = g x) -> forall k x, Nat.iter (2 * k) f x = Nat.iter k g x.
Proof.
  intros H. induction k as [|k IH]; intros x; [reflexivity|]. replace (2 * S k)%nat with (S (S (2 * k))) by lia. rewrite !iter_S, IH, H. reflexivity.
Qed.
Lemma iter_shift d : forall k r, Nat.iter k (fun p => vadd p d) r = vadd r (vscale (INR k) d).
Proof.
  induction k as [|k IH]; intros r; [apply v3_eq; unfold vadd, vscale; cbn [vx vy vz INR Nat.iter nat_rect]; ring|].
  rewrite iter_S, IH, S_INR. apply v3_eq; unfold vadd, vscale; cbn [vx vy vz]; ring.
Qed.
Lemma rot_axis_y t : rotation_matrix (V3 0 1 0) t = M3 (V3 (cos t) 0 (sin t)) (V3 0 1 0) (V3 (- sin t) 0 (cos t)).
Proof.
  unfold rotation_matrix. assert (N : vnorm (V3 0 1 0) = 1) by (unfold vnorm, vdot; cbn [vx vy vz]; replace (0 * 0 + 1 * 1 + 0 * 0) with 1 by ring; apply sqrt_1).
  rewrite N. unfold vscale. cbn [vx vy vz]. f_equal; f_equal; field.
Qed.
Lemma rot_axis_x t : rotation_matrix (V3 1 0 0) t = M3 (V3 1 0 0) (V3 0 (cos t) (- sin t)) (V3 0 (sin t) (cos t)).
Proof.
  unfold rotation_matrix. assert (N : vnorm (V3 1 0 0) = 1) by (unfold vnorm, vdot; cbn [vx vy vz]; replace (1 * 1 + 0 * 0 + 0 * 0) with 1 by ring; apply sqrt_1).
  rewrite N. unfold vscale. cbn [vx vy vz]. f_equal; f_equal; field.
Qed.
(** with both directions they do not *)
Lemma sad_refuted : exists angle1 angle2 Rs r, sad_transform angle1 angle2 Rs (sad_transform angle1 angle2 Rs r (1, 1, 0)%Z) (-1, -1, 0)%Z <> r.
Proof.
  exists (INR sad_M * PI), (INR sad_M * (PI / 2)), 1, vzero. unfold sad_transform, o1, o2. cbn [fst snd Z.eqb Pos.eqb andb].
  assert (St : forall s, s = 1 \/ s = -1 -> forall p, sad_step 1 (INR sad_M * PI * s) (INR sad_M * (PI / 2) * s) p = V3 (- vx p) (s * vz p + s * 2) (s * vy p + 2)).
  { intros s Hs p. unfold sad_step, sad_rot1, sad_rot2. cbv zeta.
    replace (INR sad_M * PI * s / INR sad_M) with (s * PI) by (field; apply sadM_pos). replace (INR sad_M * (PI / 2) * s / INR sad_M) with (s * (PI / 2)) by (field; apply sadM_pos).
    rewrite rot_axis_x, rot_axis_y.
    assert (T : cos (s * PI) = -1 /\ sin (s * PI) = 0 /\ cos (s * (PI / 2)) = 0 /\ sin (s * (PI / 2)) = s).
    { destruct Hs as [-> | ->].
      - rewrite !Rmult_1_l. rewrite cos_PI, sin_PI, cos_PI2, sin_PI2. repeat split.
      - replace (-1 * PI) with (- PI) by ring. replace (-1 * (PI / 2)) with (- (PI / 2)) by ring. rewrite !cos_neg, !sin_neg, cos_PI, sin_PI, cos_PI2, sin_PI2. repeat split; lra. }
    destruct T as (T1 & T2 & T3 & T4). rewrite T1, T2, T3, T4.
    apply v3_eq; unfold vadd, vsub, mv, vdot; cbn [vx vy vz row1 row2 row3]; ring. }
  assert (S2 : forall s, s = 1 \/ s = -1 -> forall p, sad_step 1 (INR sad_M * PI * s) (INR sad_M * (PI / 2) * s) (sad_step 1 (INR sad_M * PI * s) (INR sad_M * (PI / 2) * s) p) = vadd p (V3 0 (4 * s) 4)).
  { intros s Hs p. rewrite !St by exact Hs. destruct Hs as [-> | ->]; apply v3_eq; unfold vadd; cbn [vx vy vz]; ring. }
  assert (It : forall s r, s = 1 \/ s = -1 -> Nat.iter sad_M (sad_step 1 (INR sad_M * PI * s) (INR sad_M * (PI / 2) * s)) r = vadd r (vscale (INR 25) (V3 0 (4 * s) 4))).
  { intros s r Hs. change sad_M with (2 * 25)%nat at 1. rewrite (iter_twice _ _ (fun p => vadd p (V3 0 (4 * s) 4))) by (intros; apply S2; exact Hs). apply iter_shift. }
  rewrite !It by (left + right; reflexivity). intros E. apply (f_equal vz) in E. unfold vadd, vscale, vzero in E. cbn [vx vy vz] in E. assert (0 < INR 25) by (apply lt_0_INR; lia). nra.
Qed.
