From Coq Require Import Reals List Bool Arith Lia Lra.
From Verif Require Import Vec GeomModel GeomSpec GeomProofs SkModel SkSpec SkProofs SkProofs2 SkProofs3 SkProofs4.
Import ListNotations.
Open Scope R_scope.

(** ** The general transformation is the matrix of the rotation *)
Lemma direction_unit th ph : vdot (direction th ph) (direction th ph) = 1.
Proof.
  unfold direction, vdot. cbn [vx vy vz]. pose proof (sin2_cos2 th) as A. pose proof (sin2_cos2 ph) as B. unfold Rsqr in *.
  replace (sin th * cos ph * (sin th * cos ph) + sin th * sin ph * (sin th * sin ph) + cos th * cos th)
    with (sin th * sin th * (sin ph * sin ph + cos ph * cos ph) + cos th * cos th) by ring. rewrite B. lra.
Qed.
Lemma direction_rotm th ph an : rotation_matrix (direction th ph) an = rotm (direction th ph) an.
Proof.
  rewrite rotation_matrix_rotm. f_equal. unfold vnorm. rewrite direction_unit, sqrt_1, Rinv_1. destruct (direction th ph). unfold vscale. cbn. f_equal; ring.
Qed.
(** the d block written out *)
Definition quad (Q : m3) (a b : nat) : R :=
  match a, b with
  | 4%nat, 4%nat => (1 / 1) * (m3e Q 0 0 * m3e Q 1 1) + (1 / 1) * (m3e Q 0 1 * m3e Q 1 0)
  | 4%nat, 5%nat => (1 / 1) * (m3e Q 0 1 * m3e Q 1 2) + (1 / 1) * (m3e Q 0 2 * m3e Q 1 1)
  | 4%nat, 6%nat => (1 / 1) * (m3e Q 0 0 * m3e Q 1 2) + (1 / 1) * (m3e Q 0 2 * m3e Q 1 0)
  | 4%nat, 7%nat => (1 / 1) * (m3e Q 0 0 * m3e Q 1 0) + (- 1 / 1) * (m3e Q 0 1 * m3e Q 1 1)
  | 4%nat, 8%nat => s3 * ((- 1 / 3) * (m3e Q 0 0 * m3e Q 1 0) + (- 1 / 3) * (m3e Q 0 1 * m3e Q 1 1) + (2 / 3) * (m3e Q 0 2 * m3e Q 1 2))
  | 5%nat, 4%nat => (1 / 1) * (m3e Q 1 0 * m3e Q 2 1) + (1 / 1) * (m3e Q 1 1 * m3e Q 2 0)
  | 5%nat, 5%nat => (1 / 1) * (m3e Q 1 1 * m3e Q 2 2) + (1 / 1) * (m3e Q 1 2 * m3e Q 2 1)
  | 5%nat, 6%nat => (1 / 1) * (m3e Q 1 0 * m3e Q 2 2) + (1 / 1) * (m3e Q 1 2 * m3e Q 2 0)
  | 5%nat, 7%nat => (1 / 1) * (m3e Q 1 0 * m3e Q 2 0) + (- 1 / 1) * (m3e Q 1 1 * m3e Q 2 1)
  | 5%nat, 8%nat => s3 * ((- 1 / 3) * (m3e Q 1 0 * m3e Q 2 0) + (- 1 / 3) * (m3e Q 1 1 * m3e Q 2 1) + (2 / 3) * (m3e Q 1 2 * m3e Q 2 2))
  | 6%nat, 4%nat => (1 / 1) * (m3e Q 0 0 * m3e Q 2 1) + (1 / 1) * (m3e Q 0 1 * m3e Q 2 0)
  | 6%nat, 5%nat => (1 / 1) * (m3e Q 0 1 * m3e Q 2 2) + (1 / 1) * (m3e Q 0 2 * m3e Q 2 1)
  | 6%nat, 6%nat => (1 / 1) * (m3e Q 0 0 * m3e Q 2 2) + (1 / 1) * (m3e Q 0 2 * m3e Q 2 0)
  | 6%nat, 7%nat => (1 / 1) * (m3e Q 0 0 * m3e Q 2 0) + (- 1 / 1) * (m3e Q 0 1 * m3e Q 2 1)
  | 6%nat, 8%nat => s3 * ((- 1 / 3) * (m3e Q 0 0 * m3e Q 2 0) + (- 1 / 3) * (m3e Q 0 1 * m3e Q 2 1) + (2 / 3) * (m3e Q 0 2 * m3e Q 2 2))
  | 7%nat, 4%nat => (1 / 1) * (m3e Q 0 0 * m3e Q 0 1) + (- 1 / 1) * (m3e Q 1 0 * m3e Q 1 1)
  | 7%nat, 5%nat => (1 / 1) * (m3e Q 0 1 * m3e Q 0 2) + (- 1 / 1) * (m3e Q 1 1 * m3e Q 1 2)
  | 7%nat, 6%nat => (1 / 1) * (m3e Q 0 0 * m3e Q 0 2) + (- 1 / 1) * (m3e Q 1 0 * m3e Q 1 2)
  | 7%nat, 7%nat => (1 / 2) * (m3e Q 0 0 * m3e Q 0 0) + (- 1 / 2) * (m3e Q 0 1 * m3e Q 0 1) + (- 1 / 2) * (m3e Q 1 0 * m3e Q 1 0) + (1 / 2) * (m3e Q 1 1 * m3e Q 1 1)
  | 7%nat, 8%nat => s3 * ((- 1 / 6) * (m3e Q 0 0 * m3e Q 0 0) + (- 1 / 6) * (m3e Q 0 1 * m3e Q 0 1) + (1 / 3) * (m3e Q 0 2 * m3e Q 0 2) + (1 / 6) * (m3e Q 1 0 * m3e Q 1 0) + (1 / 6) * (m3e Q 1 1 * m3e Q 1 1) + (- 1 / 3) * (m3e Q 1 2 * m3e Q 1 2))
  | 8%nat, 4%nat => s3 * ((- 1 / 3) * (m3e Q 0 0 * m3e Q 0 1) + (- 1 / 3) * (m3e Q 1 0 * m3e Q 1 1) + (2 / 3) * (m3e Q 2 0 * m3e Q 2 1))
  | 8%nat, 5%nat => s3 * ((- 1 / 3) * (m3e Q 0 1 * m3e Q 0 2) + (- 1 / 3) * (m3e Q 1 1 * m3e Q 1 2) + (2 / 3) * (m3e Q 2 1 * m3e Q 2 2))
  | 8%nat, 6%nat => s3 * ((- 1 / 3) * (m3e Q 0 0 * m3e Q 0 2) + (- 1 / 3) * (m3e Q 1 0 * m3e Q 1 2) + (2 / 3) * (m3e Q 2 0 * m3e Q 2 2))
  | 8%nat, 7%nat => s3 * ((- 1 / 6) * (m3e Q 0 0 * m3e Q 0 0) + (1 / 6) * (m3e Q 0 1 * m3e Q 0 1) + (- 1 / 6) * (m3e Q 1 0 * m3e Q 1 0) + (1 / 6) * (m3e Q 1 1 * m3e Q 1 1) + (1 / 3) * (m3e Q 2 0 * m3e Q 2 0) + (- 1 / 3) * (m3e Q 2 1 * m3e Q 2 1))
  | 8%nat, 8%nat => (1 / 6) * (m3e Q 0 0 * m3e Q 0 0) + (1 / 6) * (m3e Q 0 1 * m3e Q 0 1) + (- 1 / 3) * (m3e Q 0 2 * m3e Q 0 2) + (1 / 6) * (m3e Q 1 0 * m3e Q 1 0) + (1 / 6) * (m3e Q 1 1 * m3e Q 1 1) + (- 1 / 3) * (m3e Q 1 2 * m3e Q 1 2) + (- 1 / 3) * (m3e Q 2 0 * m3e Q 2 0) + (- 1 / 3) * (m3e Q 2 1 * m3e Q 2 1) + (2 / 3) * (m3e Q 2 2 * m3e Q 2 2)
  | _, _ => 0
  end.

Lemma Drep_quad Q a b : dshell a -> dshell b -> Drep Q a b = quad Q a b.
Proof.
  intros Ha Hb. rewrite Drep_dd by assumption. pose proof s3_sq as H3. destruct Q as [[q00 q01 q02] [q10 q11 q12] [q20 q21 q22]].
  unfold frob, mm, tr, mv, vdot, quad, m3e, comp. cbn [vx vy vz row1 row2 row3].
  five a; five b; cbn [Td vx vy vz row1 row2 row3]; generalize dependent s3; intros t H3; field [H3].
Qed.
Lemma angles_rotation th ph an a b : (a < 9)%nat -> (b < 9)%nat ->
  orbital_transformations_from_angles th ph an b a = Drep (rotation_matrix (direction th ph) an) a b.
Proof.
  intros Ha Hb. rewrite direction_rotm. unfold direction, rotm. cbn [vx vy vz]. cbv zeta.
  pose proof PI_RGT_0 as Hpi. pose proof (sin2_cos2 th) as A. pose proof (sin2_cos2 ph) as B. pose proof (sin2_cos2 an) as C. unfold Rsqr in *.
  assert (A' : sin th * sin th = 1 - cos th * cos th) by lra. assert (B' : sin ph * sin ph = 1 - cos ph * cos ph) by lra.
  assert (C' : sin an * sin an = 1 - cos an * cos an) by lra. clear A B C.
  assert (Hp : PI <> 0) by lra. clear Hpi.
  assert (W : forall c d, (c < 4 \/ d < 4)%nat -> (c < 9)%nat -> (d < 9)%nat -> shell c <> shell d -> orbital_transformations_from_angles th ph an d c = 0).
  { intros c d _ Hc Hd Hs. nine c; nine d; try (exfalso; apply Hs; reflexivity); unfold orbital_transformations_from_angles; ring. }
  destruct (Nat.eq_dec (shell a) (shell b)) as [E|E].
  2:{ rewrite Drep_off by exact E. destruct (le_lt_dec 4 a) as [G|G]; [destruct (le_lt_dec 4 b) as [G'|G']|].
      - exfalso. apply E. rewrite !d_shell by assumption. reflexivity.
      - apply W; auto.
      - apply W; auto. }
  clear W. nine_shell a.
  - nine_shell b; [|rewrite (shell_p b) in E by assumption; discriminate E|rewrite (shell_dd b) in E by assumption; discriminate E].
    unfold Drep, orbital_transformations_from_angles. cbn [shell Nat.eqb]. reflexivity.
  - nine_shell b; [rewrite (shell_p a) in E by assumption; discriminate E| |rewrite (shell_dd b), (shell_p a) in E by assumption; discriminate E].
    clear E Ha Hb. destruct a as [|[|[|[|a]]]]; try lia; destruct b as [|[|[|[|b]]]]; try lia;
      unfold Drep, orbital_transformations_from_angles; cbn [shell Nat.eqb Nat.leb m3e comp Nat.sub vx vy vz row1 row2 row3]; ring.
  - nine_shell b; [rewrite (shell_dd a) in E by assumption; discriminate E|rewrite (shell_dd a), (shell_p b) in E by assumption; discriminate E|].
    rewrite Drep_quad by assumption. unfold orbital_transformations_from_angles.
    generalize dependent (sin th). generalize dependent (cos th). intros ct st A'.
    generalize dependent (sin ph). generalize dependent (cos ph). intros cp sp B'.
    generalize dependent (sin an). generalize dependent (cos an). intros ca sa C'. clear E.
    generalize dependent PI. intros pi Hp.
    five a; five b; unfold quad; cbn [m3e comp vx vy vz row1 row2 row3]; unfold s3; generalize (sqrt 3); intros t; field [A' B' C']; exact Hp.
Qed.

(** ** Rotations about z *)
Lemma z_form R0 : is_rotation R0 -> m3e R0 2 2 = 1 ->
  exists c s, c * c + s * s = 1 /\ R0 = M3 (V3 c (- s) 0) (V3 s c 0) (V3 0 0 1).
Proof.
  intros (H1 & H2 & H3) H. destruct R0 as [[a b c] [d e f] [g h i]]. unfold m3e, comp in H. cbn [row3 vz] in H. subst i.
  unfold mm, tr, mv, vdot, eye in H1, H2. cbn [vx vy vz row1 row2 row3] in H1, H2. injection H1 as A1 A2 A3 A4 A5 A6 A7 A8 A9. injection H2 as B1 B2 B3 B4 B5 B6 B7 B8 B9.
  assert (g = 0) by nra. assert (h = 0) by nra. subst g h. assert (c = 0) by nra. assert (f = 0) by nra. subst c f.
  unfold det, vdot, vcross in H3. cbn [vx vy vz row1 row2 row3] in H3.
  assert (D : a * e - b * d = 1) by lra.
  assert (E1 : e = a) by (transitivity ((a * a + b * b) * e); [replace (a * a + b * b) with 1 by lra; ring|];
    replace ((a * a + b * b) * e) with (a * (a * e - b * d) + b * (a * d + b * e)) by ring; rewrite D; replace (a * d + b * e) with 0 by lra; ring).
  assert (E2 : d = - b) by (transitivity ((a * a + b * b) * d); [replace (a * a + b * b) with 1 by lra; ring|];
    replace ((a * a + b * b) * d) with (a * (a * d + b * e) - b * (a * e - b * d)) by ring; rewrite D; replace (a * d + b * e) with 0 by lra; ring).
  exists a, (- b). split; [lra|]. subst. apply m3_eq; apply v3_eq; cbn; ring.
Qed.
Lemma z_rotation R0 a b : is_rotation R0 -> m3e R0 2 2 = 1 -> (a < 9)%nat -> (b < 9)%nat -> z_transformation R0 a b = Drep R0 a b.
Proof.
  intros H H1 Ha Hb. destruct (z_form R0 H H1) as (c & s & E & ->). clear H H1.
  assert (E' : s * s = 1 - c * c) by lra. clear E.
  destruct (Nat.eq_dec (shell a) (shell b)) as [E|E].
  2:{ rewrite Drep_off by exact E. unfold z_transformation. nine a; nine b; try (exfalso; apply E; reflexivity); reflexivity. }
  nine_shell a.
  - nine_shell b; [|rewrite (shell_p b) in E by assumption; discriminate E|rewrite (shell_dd b) in E by assumption; discriminate E].
    unfold Drep, z_transformation. cbn [shell Nat.eqb]. reflexivity.
  - nine_shell b; [rewrite (shell_p a) in E by assumption; discriminate E| |rewrite (shell_dd b), (shell_p a) in E by assumption; discriminate E].
    clear E Ha Hb. destruct a as [|[|[|[|a]]]]; try lia; destruct b as [|[|[|[|b]]]]; try lia;
      unfold Drep, z_transformation; cbn [shell Nat.eqb Nat.leb Nat.ltb andb m3e comp Nat.sub vx vy vz row1 row2 row3]; ring.
  - nine_shell b; [rewrite (shell_dd a) in E by assumption; discriminate E|rewrite (shell_dd a), (shell_p b) in E by assumption; discriminate E|].
    rewrite Drep_quad by assumption. unfold z_transformation. clear E Ha Hb.
    five a; five b; unfold quad; cbn [Nat.leb Nat.ltb andb m3e comp vx vy vz row1 row2 row3]; unfold s3; generalize (sqrt 3); intros t; field [E'].
Qed.
(** without d orbitals any rotation is exact *)
Lemma p_rotation R0 a b : (a < 4)%nat -> (b < 4)%nat -> z_transformation R0 a b = Drep R0 a b.
Proof.
  intros Ha Hb. destruct a as [|[|[|[|a]]]]; try lia; destruct b as [|[|[|[|b]]]]; try lia; reflexivity.
Qed.
Lemma diag1_dlt a b : diag9 (fun _ => 1) a b = dlt a b. Proof. reflexivity. Qed.
Lemma eps12_pos : 0 < eps12. Proof. unfold eps12. apply Rinv_0_lt_compat. apply pow_lt. lra. Qed.

Lemma near_self x : ltb (Rabs (x - x)) eps12 = true.
Proof. apply ltb_true. rewrite Rminus_diag_eq, Rabs_R0 by reflexivity. apply eps12_pos. Qed.

(** the angles describe the rotation, and no angle is so small that the code takes it for zero *)
Lemma rotation_transformation_exact R0 dorb th ph an a b :
  R0 = rotation_matrix (direction th ph) an -> clear_cut R0 ->
  (dorb = true -> eps12 <= Rabs (m3e R0 2 2 + 1)) ->
  (a < 9)%nat -> (b < 9)%nat -> (dorb = false -> (a < 4)%nat /\ (b < 4)%nat) ->
  rotation_transformation R0 dorb th ph an a b = Drep R0 a b.
Proof.
  intros HR (C1 & C2) Hm Ha Hb Hd. unfold rotation_transformation.
  assert (HRot : is_rotation R0).
  { rewrite HR. apply rotation_matrix_rotation. intros E. pose proof (direction_unit th ph) as U. rewrite E in U. unfold vdot, vzero in U. cbn in U. lra. }
  destruct (ltb (Rabs (m3e R0 0 0 - 1)) eps12 && ltb (Rabs (m3e R0 1 1 - 1)) eps12 && ltb (Rabs (m3e R0 2 2 - 1)) eps12) eqn:E.
  - apply andb_true_iff in E. destruct E as [E E3]. apply andb_true_iff in E. destruct E as [E1 E2]. rewrite ltb_true in E1, E2, E3.
    rewrite (C1 (conj E1 (conj E2 E3))). rewrite Drep_eye by assumption. reflexivity.
  - destruct dorb; cbn [andb].
    + destruct (ltb eps12 (Rabs (m3e R0 2 2 - 1))) eqn:E2.
      * destruct (ltb (Rabs (m3e R0 2 2 + 1)) eps12) eqn:E3.
        -- apply ltb_true in E3. specialize (Hm eq_refl). lra.
        -- rewrite HR. apply angles_rotation; assumption.
      * apply z_rotation; try assumption. apply C2. apply ltb_false in E2. exact E2.
    + apply p_rotation; apply Hd; reflexivity.
Qed.
(** the branch for R[2,2] = -1 *)
Lemma mirror_exact th ph an a b : (a < 9)%nat -> (b < 9)%nat ->
  rotation_transformation mirror_xy true th ph an a b = Drep mirror_xy a b.
Proof.
  intros Ha Hb. unfold rotation_transformation, mirror_xy. cbn [m3e comp vx vy vz row1 row2 row3].
  replace (ltb (Rabs (-1 - 1)) eps12) with false.
  2:{ symmetry. apply ltb_false. rewrite Rabs_left by lra. unfold eps12. apply Rle_trans with (/ 1); [apply Rinv_le_contravar; [lra|apply pow_R1_Rle; lra]|rewrite Rinv_1; lra]. }
  rewrite andb_false_r. cbn [andb].
  replace (ltb eps12 (Rabs (-1 - 1))) with true.
  2:{ symmetry. apply ltb_true. rewrite Rabs_left by lra. unfold eps12. apply Rle_lt_trans with (/ 1); [apply Rinv_le_contravar; [lra|apply pow_R1_Rle; lra]|rewrite Rinv_1; lra]. }
  replace (-1 + 1) with (1 - 1) by ring. rewrite near_self.
  destruct (Nat.eq_dec (shell a) (shell b)) as [E|E].
  2:{ rewrite Drep_off by exact E. unfold diag9. replace (a =? b)%nat with false; [reflexivity|]. symmetry. apply Nat.eqb_neq. intros ->. apply E. reflexivity. }
  nine_shell a.
  - nine_shell b; [|rewrite (shell_p b) in E by assumption; discriminate E|rewrite (shell_dd b) in E by assumption; discriminate E]. reflexivity.
  - nine_shell b; [rewrite (shell_p a) in E by assumption; discriminate E| |rewrite (shell_dd b), (shell_p a) in E by assumption; discriminate E].
    clear E Ha Hb. destruct a as [|[|[|[|a]]]]; try lia; destruct b as [|[|[|[|b]]]]; try lia; reflexivity.
  - nine_shell b; [rewrite (shell_dd a) in E by assumption; discriminate E|rewrite (shell_dd a), (shell_p b) in E by assumption; discriminate E|].
    rewrite Drep_quad by assumption. clear E Ha Hb.
    five a; five b; unfold quad, diag9; cbn [Nat.eqb m3e comp vx vy vz row1 row2 row3]; field.
Qed.
Lemma half_turn_wrong th ph an : rotation_transformation (roty PI) true th ph an 1 1 <> Drep (roty PI) 1 1.
Proof.
  unfold rotation_transformation. unfold roty. rewrite cos_PI, sin_PI. cbn [m3e comp vx vy vz row1 row2 row3].
  replace (ltb (Rabs (-1 - 1)) eps12) with false.
  2:{ symmetry. apply ltb_false. rewrite Rabs_left by lra. unfold eps12. apply Rle_trans with (/ 1); [apply Rinv_le_contravar; [lra|apply pow_R1_Rle; lra]|rewrite Rinv_1; lra]. }
  cbn [andb].
  replace (ltb eps12 (Rabs (-1 - 1))) with true.
  2:{ symmetry. apply ltb_true. rewrite Rabs_left by lra. unfold eps12. apply Rle_lt_trans with (/ 1); [apply Rinv_le_contravar; [lra|apply pow_R1_Rle; lra]|rewrite Rinv_1; lra]. }
  replace (-1 + 1) with (1 - 1) by ring. rewrite near_self. unfold diag9, Drep. cbn [Nat.eqb shell Nat.leb m3e comp vx vy vz row1 row2 row3 Nat.sub]. lra.
Qed.
