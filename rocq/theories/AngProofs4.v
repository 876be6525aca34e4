(** Proofs about the rotation of orbitals with the angles of containers. *)
From Coq Require Import Reals ZArith List Bool Lia Lra.
From Verif Require Import Vec GeomModel GeomSpec GeomProofs ScaModel SkModel SkSpec SkProofs5 SkProofs8 Cpx AngModel AngSpec AngProofs AngProofs2 AngProofs3.
Import ListNotations.
Open Scope R_scope.

(** s and p orbitals, for every matrix *)
Lemma sp_rotated R0 th ph an b x : clear_cut R0 -> (b < 4)%nat ->
  orbital b (mv (tr R0) x) = rsum 4 (fun a => orbital a x * rotation_transformation R0 false th ph an a b).
Proof.
  intros [HC _] Hb. unfold rotation_transformation.
  destruct (ltb (Rabs (m3e R0 0 0 - 1)) eps12 && ltb (Rabs (m3e R0 1 1 - 1)) eps12 && ltb (Rabs (m3e R0 2 2 - 1)) eps12) eqn:N.
  - apply andb_prop in N. destruct N as [N N3]. apply andb_prop in N. destruct N as [N1 N2].
    apply ltb_true in N1, N2, N3. rewrite (HC (conj N1 (conj N2 N3))).
    destruct x as [x y z]. destruct b as [|[|[|[|b]]]]; [| | | |lia]; cbn [rsum]; unfold diag9, eye, tr, mv, vdot; cbn; ring.
  - cbn [andb]. destruct R0 as [[m1 m2 m3] [m4 m5 m6] [m7 m8 m9]], x as [x y z].
    destruct b as [|[|[|[|b]]]]; [| | | |lia]; unfold z_transformation, tr, mv, vdot; cbn; ring.
Qed.
(** a rotation that leaves the z-component alone is about z *)
Lemma about_z m : is_rotation m -> m3e m 2 2 = 1 -> exists t, m = rotation_matrix (direction 0 0) t.
Proof.
  intros Hm E.
  assert (F : mv m (V3 0 0 1) = V3 0 0 1).
  { pose proof (rotation_dot m (V3 0 0 1) (V3 0 0 1) Hm) as D. destruct m as [[a b c] [d e f] [g h k]].
    cbn [m3e comp vx vy vz row1 row2 row3] in E. subst k. vunf.
    assert (c = 0) by nra. assert (f = 0) by nra. subst. apply v3_eq; cbn; ring. }
  destruct (turn m (V3 0 0 1) (V3 1 0 0) Hm z_unit F) as [t [H _]]; [vunf; ring|vunf; ring|].
  exists t. rewrite direction_00. exact H.
Qed.
Lemma eye_matrix : eye = rotation_matrix (direction 0 0) 0.
Proof. rewrite <- rotz_matrix. unfold rotz, eye. rewrite sin_0, cos_0, Ropp_0. reflexivity. Qed.
Definition mirrored (c : ctype) (n : op) : bool := match c with Slab => negb (o3 n =? 0)%Z | _ => false end.
Lemma container_rotation eig u c a n : angles_defined eig u c a n -> mirrored c n = false -> is_rotation (rotation c a n).
Proof.
  intros Hd Hm. destruct c; cbn [rotation]; try apply rotz_rotation; try apply roty_rotation; try apply is_rotation_eye.
  - unfold sphere_rotation. destruct Hd as [M Hd]. destruct ((o1 n =? o2 n)%Z && (o2 n =? 0)%Z)%bool eqn:Z; [apply is_rotation_eye|].
    rewrite M. cbn [Z.eqb Pos.eqb]. cbv zeta. apply rotation_matrix_rotation. destruct Hd as [[A B]|Hd]; [|exact Hd].
    rewrite A, B in Z. discriminate Z.
  - cbn [mirrored] in Hm. destruct (o3 n =? 0)%Z; [apply is_rotation_eye|discriminate].
  - apply (tat_is_rotation a n).
Qed.
(** rotation_transformation does not look at the angles unless it asks for them *)
Lemma angles_unused R0 dorb th ph an th' ph' an' a b : asks_for_angles R0 dorb = false ->
  rotation_transformation R0 dorb th ph an a b = rotation_transformation R0 dorb th' ph' an' a b.
Proof.
  unfold asks_for_angles, rotation_transformation.
  destruct (ltb (Rabs (m3e R0 0 0 - 1)) eps12 && ltb (Rabs (m3e R0 1 1 - 1)) eps12 && ltb (Rabs (m3e R0 2 2 - 1)) eps12); [reflexivity|].
  cbn [negb andb]. destruct (dorb && ltb eps12 (Rabs (m3e R0 2 2 - 1))); [|reflexivity].
  destruct (ltb (Rabs (m3e R0 2 2 + 1)) eps12); [reflexivity|discriminate].
Qed.
Lemma asks_eye dorb : asks_for_angles eye dorb = false.
Proof. unfold asks_for_angles, eye. cbn [m3e comp vx vy vz row1 row2 row3]. rewrite near_self. reflexivity. Qed.
Lemma asks_z R0 dorb : m3e R0 2 2 = 1 -> asks_for_angles R0 dorb = false.
Proof.
  intros E. unfold asks_for_angles. rewrite E. replace (1 - 1) with 0 by ring. rewrite Rabs_R0.
  rewrite (ltb_f eps12 0) by (pose proof eps12_pos; lra). rewrite andb_false_r, andb_false_r. reflexivity.
Qed.
(** containers that give no angles are not asked *)
Lemma asked_given eig u c a n dorb : angles_defined eig u c a n -> asks_for_angles (rotation c a n) dorb = true ->
  exists th ph an, rotation_angles eig u c a n = Angles th ph an.
Proof.
  intros Hd H. apply container_gives; [exact Hd|]. destruct c; try exact I.
  - cbn [rotation] in H. rewrite asks_eye in H. discriminate.
  - cbn [rotation] in H. rewrite asks_z in H by reflexivity. discriminate.
  - cbn [rotation] in H. rewrite asks_z in H by reflexivity. discriminate.
  - cbn [rotation] in H. unfold sphere_rotation in H.
    destruct ((o1 n =? o2 n)%Z && (o2 n =? 0)%Z)%bool eqn:Z; [rewrite asks_eye in H; discriminate|].
    destruct (Z.eqb_spec (o1 n) (o2 n)), (Z.eqb_spec (o2 n) 0); cbn [andb] in Z; try discriminate; lia.
  - cbn [rotation] in H. destruct (o3 n =? 0)%Z; [rewrite asks_eye in H; discriminate|].
    unfold asks_for_angles in H. cbn [m3e comp vx vy vz row1 row2 row3] in H. replace (-1 + 1) with (1 - 1) in H by ring. rewrite near_self in H.
    rewrite andb_false_r in H. discriminate.
  - cbn [rotation] in H. rewrite asks_z in H by reflexivity. discriminate.
  - cbn [rotation] in H. destruct (Z.eqb_spec (o3 n) 0) as [Z|Z]; [rewrite asks_eye in H; discriminate|exact Z].
Qed.
Lemma container_orbitals eig u c a dorb n : angles_defined eig u c a n -> clear_cut (rotation c a n) ->
  (dorb = true -> eps12 <= Rabs (m3e (rotation c a n) 2 2 + 1)) ->
  exists D, container_transformation eig u c a dorb n = Some D /\
    forall b x, (b < (if dorb then 9 else 4))%nat ->
      orbital b (mv (tr (rotation c a n)) x) = rsum (if dorb then 9 else 4) (fun k => orbital k x * D k b).
Proof.
  intros Hd HC Hm. unfold container_transformation. set (R0 := rotation c a n) in *.
  destruct (asks_for_angles R0 dorb) eqn:A.
  - destruct (asked_given eig u c a n dorb Hd A) as [th [ph [an E]]]. rewrite E. eexists. split; [reflexivity|].
    intros b x Hb. apply orbitals_rotated; try assumption. exact (container_angles eig u c a n th ph an Hd E).
  - eexists. split; [reflexivity|]. intros b x Hb. destruct dorb.
    2:{ apply sp_rotated; assumption. }
    assert (Mi : mirrored c n = false).
    { destruct c; try reflexivity. cbn [mirrored]. unfold R0 in Hm. cbn [rotation] in Hm. destruct (o3 n =? 0)%Z; [reflexivity|].
      exfalso. specialize (Hm eq_refl). cbn [m3e comp vx vy vz row1 row2 row3] in Hm. replace (-1 + 1) with 0 in Hm by ring. rewrite Rabs_R0 in Hm. pose proof eps12_pos; lra. }
    pose proof (container_rotation eig u c a n Hd Mi) as HR. fold R0 in HR.
    assert (Z : exists t, R0 = rotation_matrix (direction 0 0) t).
    { destruct HC as [C1 C2]. unfold asks_for_angles in A.
      destruct (ltb (Rabs (m3e R0 0 0 - 1)) eps12 && ltb (Rabs (m3e R0 1 1 - 1)) eps12 && ltb (Rabs (m3e R0 2 2 - 1)) eps12) eqn:N.
      - apply andb_prop in N. destruct N as [N N3]. apply andb_prop in N. destruct N as [N1 N2].
        apply ltb_true in N1, N2, N3. exists 0. rewrite (C1 (conj N1 (conj N2 N3))). exact eye_matrix.
      - cbn [negb andb] in A. destruct (ltb eps12 (Rabs (m3e R0 2 2 - 1))) eqn:B.
        + cbn [andb] in A. destruct (ltb (Rabs (m3e R0 2 2 + 1)) eps12) eqn:B2; [|discriminate]. apply ltb_true in B2. specialize (Hm eq_refl). lra.
        + apply ltb_false in B. apply about_z; [exact HR|]. apply C2. exact B. }
    destruct Z as [t Ht]. rewrite (orbitals_rotated R0 true 0 0 t b x Ht HC Hm Hb).
    apply rsum_ext. intros k Hk. f_equal. apply angles_unused. exact A.
Qed.
