From Coq Require Import Reals List Bool Arith Lia Lra.
From Verif Require Import Vec GeomModel GeomSpec GeomProofs PairModel PairSpec PairProofs SkModel SkSpec SkProofs SkProofs2 SkProofs3 SkProofs4 SkProofs5 SkProofs6 SkProofs7.
Import ListNotations.
Open Scope R_scope.

(** ** The channels within one shell *)
Lemma around_inj c c' : (c < 9)%nat -> (c' < 9)%nat -> shell c = shell c' -> around c = around c' -> c = c'.
Proof. intros H H' E E'. nine c; nine c'; try reflexivity; cbn in E, E'; discriminate. Qed.
Lemma channels h Q a b : (a < 9)%nat -> (b < 9)%nat -> shell a = shell b ->
  bond_frame h Q a b = rsum 9 (fun c => Drep Q a c * Drep Q b c * h (integral (shell a) (shell a) (lambda (around c)))).
Proof.
  intros Ha Hb E. unfold bond_frame. apply rsum_ext. intros c Hc.
  rewrite (rsum_single 9 c); [|exact Hc|].
  - rewrite Nat.eqb_refl. destruct (Nat.eq_dec (shell a) (shell c)) as [E'|E']; [rewrite <- E'; reflexivity|].
    rewrite (Drep_off Q a c) by exact E'. ring.
  - intros c' Hc' Hne. destruct (Nat.eqb_spec (around c) (around c')) as [E'|_]; [|reflexivity].
    destruct (Nat.eq_dec (shell a) (shell c)) as [E1|E1]; [|rewrite (Drep_off Q a c) by exact E1; ring].
    destruct (Nat.eq_dec (shell b) (shell c')) as [E2|E2]; [|rewrite (Drep_off Q b c') by exact E2; ring].
    exfalso. apply Hne. symmetry. apply around_inj; try assumption. congruence.
Qed.
Lemma channel_sum r a b : vdot r r = 1 -> (a < 9)%nat -> (b < 9)%nat -> shell a = shell b -> ht r (fun _ => 1) a b = dlt a b.
Proof.
  intros Hr Ha Hb E. destruct (frame_exists r Hr) as (Q & HQ & <-). rewrite slater_koster, channels by assumption.
  rewrite <- (Drep_orth Q a b) by assumption. apply rsum_ext. intros c Hc. ring.
Qed.
Lemma integral_inj l m m' : (l = 1 /\ m < 2 /\ m' < 2 \/ l = 2 /\ m < 3 /\ m' < 3 \/ l = 0 /\ m = 0 /\ m' = 0)%nat -> integral l l m = integral l l m' -> m = m'.
Proof. intros [(-> & A & B)|[(-> & A & B)|(-> & -> & ->)]] E; cbn in E; lia. Qed.
Lemma lambda_small c : (c < 9)%nat -> (shell c = 1 /\ lambda (around c) < 2 \/ shell c = 2 /\ lambda (around c) < 3 \/ shell c = 0 /\ lambda (around c) = 0)%nat.
Proof. intros H. nine c; cbn; lia. Qed.
Lemma channel_product r l m m' a b : vdot r r = 1 -> (l < 3)%nat -> (m <= l)%nat -> (m' <= l)%nat -> (a < 9)%nat -> (b < 9)%nat -> shell a = l -> shell b = l ->
  rsum 9 (fun c => if (shell c =? l)%nat then ht r (channel l m) a c * ht r (channel l m') c b else 0) =
  if (m =? m')%nat then ht r (channel l m) a b else 0.
Proof.
  intros Hr Hl Hm Hm' Ha Hb Ea Eb. destruct (frame_exists r Hr) as (Q & HQ & <-).
  pose proof (orthogonal_tr Q HQ) as HQt.
  set (w := fun m e => channel l m (integral l l (lambda (around e)))).
  assert (EQ : forall c, (c < 9)%nat -> (if (shell c =? l)%nat then ht (mv Q ez) (channel l m) a c * ht (mv Q ez) (channel l m') c b else 0) =
     rsum 9 (fun e => rsum 9 (fun e' => Drep Q a e * w m e * (Drep Q b e' * w m' e') * (Drep Q c e * Drep Q c e')))).
  { intros c Hc. destruct (Nat.eqb_spec (shell c) l) as [Ec|Ec].
    - rewrite !slater_koster, !channels by (assumption || congruence). rewrite Ec, Ea.
      rewrite <- rsum_scal_r. apply rsum_ext. intros e He. rewrite <- rsum_scal. apply rsum_ext. intros e' He'. unfold w. ring.
    - symmetry. apply rsum_eq0. intros e He. apply rsum_eq0. intros e' He'.
      destruct (Nat.eq_dec (shell a) (shell e)) as [E1|E1]; [|rewrite (Drep_off Q a e) by exact E1; ring].
      rewrite (Drep_off Q c e) by congruence. ring. }
  rewrite (rsum_ext 9 _ _ EQ). rewrite rsum_swap.
  rewrite (rsum_ext 9 _ (fun e => Drep Q a e * Drep Q b e * (w m e * w m' e))).
  2:{ intros e He. rewrite rsum_swap. rewrite (rsum_single 9 e); [|exact He|].
      - rewrite rsum_scal. rewrite (rsum_ext 9 _ (fun c => Drep (tr Q) e c * Drep (tr Q) e c)) by (intros c Hc; rewrite !Drep_tr by assumption; ring).
        rewrite Drep_orth by assumption. unfold dlt. rewrite Nat.eqb_refl. ring.
      - intros e' He' Hne. rewrite rsum_scal. rewrite (rsum_ext 9 _ (fun c => Drep (tr Q) e c * Drep (tr Q) e' c)) by (intros c Hc; rewrite !Drep_tr by assumption; ring).
        rewrite Drep_orth by assumption. unfold dlt. replace (e =? e')%nat with false by (symmetry; apply Nat.eqb_neq; auto). ring. }
  assert (WW : forall e, (e < 9)%nat -> shell e = l -> w m e * w m' e = if (m =? m')%nat then w m e else 0).
  { intros e He El. unfold w, channel. pose proof (lambda_small e He) as Hs. rewrite El in Hs.
    assert (K : forall q, (q <= l)%nat -> (integral l l (lambda (around e)) =? integral l l q)%nat = (lambda (around e) =? q)%nat).
    { intros q Hq. destruct (Nat.eqb_spec (lambda (around e)) q) as [->|Hne]; [apply Nat.eqb_refl|].
      apply Nat.eqb_neq. intros E. apply Hne. apply (integral_inj l); [|exact E]. lia. }
    rewrite !K by assumption. destruct (Nat.eqb_spec m m') as [->|Hne].
    - destruct (lambda (around e) =? m')%nat; ring.
    - destruct (Nat.eqb_spec (lambda (around e)) m) as [E1|E1]; [|ring].
      destruct (Nat.eqb_spec (lambda (around e)) m') as [E2|E2]; [exfalso; apply Hne; congruence|ring]. }
  destruct (m =? m')%nat eqn:Em.
  - rewrite slater_koster, channels by (assumption || congruence). rewrite Ea. apply rsum_ext. intros e He.
    destruct (Nat.eq_dec (shell a) (shell e)) as [E1|E1]; [|rewrite (Drep_off Q a e) by exact E1; ring].
    rewrite WW by (assumption || congruence). reflexivity.
  - apply rsum_eq0. intros e He. destruct (Nat.eq_dec (shell a) (shell e)) as [E1|E1]; [|rewrite (Drep_off Q a e) by exact E1; ring].
    rewrite WW by (assumption || congruence). ring.
Qed.
(** sigma coefficients are products of the coefficients of an s orbital *)
Lemma sigma_factor r a b : vdot r r = 1 -> (a < 9)%nat -> (b < 9)%nat ->
  ht r (fun c => if (c =? integral (shell a) (shell b) 0)%nat then 1 else 0) a b = ht r (fun _ => 1) 0 a * ht r (fun _ => 1) 0 b.
Proof.
  intros Hr Ha Hb. rewrite !ht_tens by (assumption || lia). unfold tens.
  nine_shell a; nine_shell b; rewrite ?(shell_p a), ?(shell_p b), ?(shell_dd a), ?(shell_dd b) by assumption; cbn [shell integral Nat.eqb Nat.add Nat.leb]; ring.
Qed.
(** each list of coefficients and of indices has the length the summation runs over *)
Lemma lengths l m n dl dm dn a b : (a < 9)%nat -> (b < 9)%nat ->
  length (mat l m n a b) = cnt a b /\ length (der l m n dl dm dn a b) = cnt a b /\ length (ind a b) = cnt a b /\ Forall (fun c => (c < 14)%nat) (ind a b).
Proof. intros Ha Hb. nine a; nine b; cbn; repeat split; repeat constructor; lia. Qed.

(** ** Examples and counterexamples *)
(** a 3-4-5 bond direction in the frame with that third axis *)
Definition ex_Q : m3 := M3 (V3 0 (4 / 5) (3 / 5)) (V3 0 (- (3 / 5)) (4 / 5)) (V3 1 0 0).
Example ex_orthogonal : orthogonal ex_Q /\ mv ex_Q ez = V3 (3 / 5) (4 / 5) 0.
Proof.
  split; [unfold orthogonal, ex_Q, mm, tr, mv, vdot, eye; cbn [vx vy vz row1 row2 row3]; apply m3_eq; apply v3_eq; cbn; field|].
  unfold ex_Q, ez, mv, vdot; cbn [vx vy vz row1 row2 row3]; apply v3_eq; cbn; ring.
Qed.
Example ex_ht h : ht (V3 (3 / 5) (4 / 5) 0) h 1 2 = 12 / 25 * (h 5%nat - h 6%nat).
Proof. unfold ht. cbn [rsum cnt Nat.leb andb mat mat_upper ind ind_upper nth vx vy vz]. field. Qed.
Example ex_reversed tij tji : ht (V3 (3 / 5) (4 / 5) 0) (read_integral tij tji) 1 0 = - (3 / 5) * tji 8%nat.
Proof. unfold ht. cbn [rsum cnt Nat.leb andb mat mat_upper ind ind_upper nth vx vy vz read_integral]. simpl. field. Qed.
Lemma reversal_needs_same : exists tij tji r, vdot r r = 1 /\
  ht (vscale (-1) r) (read_integral tji tij) 0 0 <> ht r (read_integral tij tji) 0 0.
Proof.
  exists (fun _ => 1), (fun _ => 2), (V3 0 0 1). split; [unfold vdot; cbn; ring|].
  unfold ht, vscale. cbn [rsum cnt Nat.leb andb mat mat_upper ind ind_upper nth vx vy vz read_integral]. lra.
Qed.
(** WedgeYAxis: the angles of a rotation about y *)
Lemma wedgeyaxis_angles an : roty an = rotation_matrix (direction (PI / 2) (PI / 2)) an.
Proof.
  rewrite direction_rotm, roty_rotm. unfold direction. rewrite cos_PI2, sin_PI2. f_equal. f_equal; ring.
Qed.
Example ex_wedgeyaxis a b : (a < 9)%nat -> (b < 9)%nat ->
  rotation_transformation (roty (PI / 2)) true (PI / 2) (PI / 2) (PI / 2) a b = Drep (roty (PI / 2)) a b.
Proof.
  intros Ha Hb. apply rotation_transformation_exact; try assumption; try discriminate.
  - apply wedgeyaxis_angles.
  - unfold clear_cut, roty. rewrite cos_PI2, sin_PI2. cbn [m3e comp vx vy vz row1 row2 row3].
    assert (B : eps12 < 1) by (unfold eps12; lra).
    assert (A : Rabs (0 - 1) = 1) by (rewrite Rabs_left by lra; lra). rewrite A. split; intros; lra.
  - intros _. unfold roty. rewrite cos_PI2. cbn [m3e comp vx vy vz row1 row2 row3]. replace (0 + 1) with 1 by ring. rewrite Rabs_R1.
    unfold eps12. rewrite <- Rinv_1. apply Rinv_le_contravar; [lra|apply pow_R1_Rle; lra].
Qed.
Lemma orbitals_rotated R0 dorb th ph an b x :
  R0 = rotation_matrix (direction th ph) an -> clear_cut R0 ->
  (dorb = true -> eps12 <= Rabs (m3e R0 2 2 + 1)) -> (b < (if dorb then 9 else 4))%nat ->
  orbital b (mv (tr R0) x) = rsum (if dorb then 9 else 4) (fun a => orbital a x * rotation_transformation R0 dorb th ph an a b).
Proof.
  intros HR HC Hm Hb.
  assert (HO : orthogonal R0).
  { rewrite HR. apply rotation_matrix_rotation. intros E. pose proof (direction_unit th ph) as U. rewrite E in U. unfold vdot, vzero in U. cbn in U. lra. }
  rewrite orbital_rotated by (try assumption; destruct dorb; lia).
  destruct dorb.
  - apply rsum_ext. intros a Ha. rewrite rotation_transformation_exact; (assumption || discriminate || reflexivity).
  - change 9%nat with (4 + 5)%nat. rewrite rsum_split, (rsum_eq0 5).
    + rewrite Rplus_0_r. apply rsum_ext. intros a Ha. rewrite rotation_transformation_exact; try assumption; try lia; try discriminate. reflexivity.
    + intros c Hc. rewrite Drep_off; [ring|]. rewrite d_shell by lia. intros E. destruct b as [|[|[|[|b]]]]; try lia; discriminate E.
Qed.
Lemma half_turn_orbitals : exists x, forall an, an = PI ->
  orbital 1 (mv (tr (roty PI)) x) <> rsum 9 (fun a => orbital a x * rotation_transformation (roty PI) true (PI / 2) (PI / 2) an a 1).
Proof.
  exists (V3 1 0 0). intros an ->. unfold rotation_transformation. unfold roty. rewrite cos_PI, sin_PI. cbn [m3e comp vx vy vz row1 row2 row3].
  replace (ltb (Rabs (-1 - 1)) eps12) with false.
  2:{ symmetry. apply ltb_false. rewrite Rabs_left by lra. unfold eps12. apply Rle_trans with (/ 1); [apply Rinv_le_contravar; [lra|apply pow_R1_Rle; lra]|rewrite Rinv_1; lra]. }
  cbn [andb].
  replace (ltb eps12 (Rabs (-1 - 1))) with true.
  2:{ symmetry. apply ltb_true. rewrite Rabs_left by lra. unfold eps12. apply Rle_lt_trans with (/ 1); [apply Rinv_le_contravar; [lra|apply pow_R1_Rle; lra]|rewrite Rinv_1; lra]. }
  replace (-1 + 1) with (1 - 1) by ring. rewrite near_self. cbn [rsum]. unfold diag9. cbn [Nat.eqb orbital]. unfold tr, mv, vdot. cbn [vx vy vz row1 row2 row3]. lra.
Qed.
(** a reflection x -> -x (ContainerTest1) with d orbitals: dyz is even, dzx odd, but the code negates both *)
Lemma mirror_x_wrong th ph an : exists x,
  orbital 5 (mv (tr mirror_x) x) <> rsum 9 (fun a => orbital a x * rotation_transformation mirror_x true th ph an a 5).
Proof.
  exists (V3 0 1 1). unfold rotation_transformation, mirror_x. cbn [m3e comp vx vy vz row1 row2 row3].
  replace (ltb (Rabs (-1 - 1)) eps12) with false.
  2:{ symmetry. apply ltb_false. rewrite Rabs_left by lra. unfold eps12. apply Rle_trans with (/ 1); [apply Rinv_le_contravar; [lra|apply pow_R1_Rle; lra]|rewrite Rinv_1; lra]. }
  cbn [andb]. replace (ltb eps12 (Rabs (1 - 1))) with false.
  2:{ symmetry. apply ltb_false. rewrite Rminus_diag_eq, Rabs_R0 by reflexivity. apply Rlt_le, eps12_pos. }
  cbn [rsum]. unfold z_transformation. cbn [Nat.ltb Nat.leb andb orbital m3e comp vx vy vz row1 row2 row3 Td]. unfold tr, mv, vdot. cbn [vx vy vz row1 row2 row3 Td].
  pose proof s3_pos. lra.
Qed.

(** ** A chain with three images: the hypotheses of the theorems about matrices are met *)
Definition chain_t (n : nat) : v3 := match n with 1%nat => V3 0 0 4 | 2%nat => V3 0 0 (-4) | _ => vzero end.
Definition chain_inv (n : nat) : nat := match n with 1%nat => 2%nat | 2%nat => 1%nat | n => n end.
Lemma chain_images : images 3 (fun _ => eye) chain_t chain_inv.
Proof.
  constructor.
  - lia.
  - split; reflexivity.
  - intros n p q _. rewrite !mv_eye. reflexivity.
  - reflexivity.
  - intros n H. destruct n as [|[|[|n]]]; try lia; cbn; split; (lia || reflexivity).
  - intros n p H. rewrite !mv_eye. destruct p as [x y z]. destruct n as [|[|[|n]]]; try lia; unfold vadd, chain_t, chain_inv, vzero; cbn; apply v3_eq; cbn; ring.
Qed.
Definition chain_r (i : nat) : v3 := match i with 0%nat => vzero | _ => V3 0 0 1 end.
Definition chain_phase (n : nat) : cplx := match n with 1%nat => (0, 1) | 2%nat => (0, -1) | _ => (1, 0) end.
Lemma norm_z z : vnorm (V3 0 0 z) = Rabs z.
Proof. unfold vnorm, vdot. cbn [vx vy vz]. replace (0 * 0 + 0 * 0 + z * z) with (Rsqr z) by (unfold Rsqr; ring). apply sqrt_Rsqr_abs. Qed.
Lemma chain_dist n i j : (n < 3)%nat -> mdist (place (fun _ => eye) chain_t chain_r) n i j =
  Rabs (match n with 1%nat => 4 | 2%nat => -4 | _ => 0 end + (match j with 0%nat => 0 | _ => 1 end) - (match i with 0%nat => 0 | _ => 1 end)).
Proof.
  intros Hn. unfold mdist. rewrite <- norm_z. f_equal. unfold mrij, place. rewrite !mv_eye.
  destruct n as [|[|[|n]]]; try lia; destruct i, j; unfold chain_t, chain_r, vsub, vadd, vscale, vzero; cbn; apply v3_eq; cbn; ring.
Qed.
Definition chain_tab (i j : nat) (d : R) (c : nat) : R := read_integral (fun _ => d) (fun _ => d) c.
Example ex_hermitian_hyps :
  images 3 (fun _ => eye) chain_t chain_inv /\
  (forall n, (n < 3)%nat -> chain_phase (chain_inv n) = cconj (chain_phase n)) /\
  (forall n a b, (a < 4)%nat -> (b < 4)%nat -> rotation_transformation eye false 0 0 n a b = Drep eye a b) /\
  (exists M, get_matrix 2 3 (fun _ => 4%nat) (place (fun _ => eye) chain_t chain_r) (fun _ => rotation_transformation eye false 0 0 0) chain_phase
     (fun _ _ => 1) chain_tab (fun _ _ => 0) (fun _ _ => 5) = Some M).
Proof.
  split; [apply chain_images|]. split; [intros n H; destruct n as [|[|[|n]]]; try lia; unfold cconj; cbn; f_equal; ring|]. split.
  - intros n a b Ha Hb. unfold rotation_transformation. cbn [m3e comp eye vx vy vz row1 row2 row3]. rewrite !near_self. cbn [andb].
    rewrite Drep_eye by lia. reflexivity.
  - unfold get_matrix. replace (too_close 2 3 (place (fun _ => eye) chain_t chain_r)) with false; [eexists; reflexivity|].
    symmetry. apply not_true_iff_false. intros H. unfold too_close in H.
    apply existsb_exists in H. destruct H as (i & Hi & H). apply existsb_exists in H. destruct H as (j & Hj & H).
    apply existsb_exists in H. destruct H as (n & Hn & H). apply in_seq in Hi, Hj, Hn.
    apply andb_true_iff in H. destruct H as [H1 H]. apply negb_true_iff, ltb_false in H. rewrite chain_dist in H by lia.
    destruct n as [|[|[|n]]]; try lia; destruct i as [|[|i]]; try lia; destruct j as [|[|j]]; try lia; try discriminate H1;
      unfold Rabs in H; destruct Rcase_abs in H; lra.
Qed.
Example ex_smooth : smooth_pair 3 (place (fun _ => eye) chain_t chain_r) chain_tab (fun i j d c => if (10 <=? c)%nat && negb (c =? 12)%nat then -1 else 1) (fun _ _ => 0) (fun _ _ => 4) 0 1.
Proof.
  intros n Hn. rewrite chain_dist by exact Hn.
  split; [|split; [|split]]; [destruct n as [|[|[|n]]]; try lia; unfold Rabs; destruct Rcase_abs; lra..|].
  intros _ c Hc. unfold chain_tab.
  assert (D1 : forall x, derivable_pt_lim (fun d => d) x 1) by (intros x; apply derivable_pt_lim_id).
  assert (D2 : forall x k, derivable_pt_lim (fun d => k * d) x k).
  { intros x k. eapply D_eq; [apply (D_mult (fun _ => k) (fun d => d)); [apply D_const|apply D1]|]. ring. }
  do 10 (destruct c as [|c]; [cbn [read_integral Nat.leb andb]; apply D1|]).
  destruct c as [|[|[|[|c]]]]; try lia; cbn [read_integral Nat.leb Nat.eqb andb negb Nat.add]; eapply D_eq; try apply D2; cbn; ring.
Qed.
