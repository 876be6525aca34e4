From Coq Require Import Reals ZArith List Bool Arith Lia Lra Psatz.
From Verif Require Import Vec GeomModel GeomSpec GeomProofs CoulModel CoulProofs MixModel PairModel PairSpec PairProofs SkModel SkSpec SkProofs SkProofs2 SkProofs6 SkProofs7 Cpx RhoModel RhoSpec RhoProofs EigModel EigSpec EigProofs2 InvModel InvSpec InvLin InvProofs InvProofs2 InvProofs5 InvProofs6 InvProofs7 InvProofs8 GamModel InvProofs9 InvProofs10 InvProofs11 InvProofs12 InvProofs13 InvProofs14 BndProofs5 FoldSpec FoldProofs FoldProofs4 FoldProofs5 FoldProofs6 FoldProofs9 FoldProofs11 FoldProofs12 FoldProofs13.
Import ListNotations.
Open Scope R_scope.

(** ** elements with one orbital and no overlap *)
Lemma first_one I : first_orbital (fun _ => 1%nat) I = I.
Proof. induction I as [|I IH]; [reflexivity|]. cbn [first_orbital]. rewrite IH. lia. Qed.
Lemma flat_one g M i j : (i < g_N g)%nat -> (j < g_N g)%nat -> flat D2 g M i j = M i 0%nat j 0%nat.
Proof.
  intros Hi Hj. pose proof (flat_at D2 g M i 0%nat j 0%nat Hi Hj) as E. change (g_no D2 g) with (fun _ : nat => 1%nat) in E. cbv beta in E. rewrite !first_one, !Nat.add_0_r in E. apply E; lia.
Qed.
Lemma overlap_one g k i j : (i < g_N g)%nat -> (j < g_N g)%nat -> flat D2 g (g_matrix 1 D2 g (fun _ _ => 1 + 0) (d_S D2) k) i j = if (i =? j)%nat then c1 else c0.
Proof.
  intros Hi Hj. rewrite flat_one by assumption. unfold g_matrix, SkModel.matrix.
  assert (B : forall i j a b, block (g_nimg g) (g_no D2 g) (g_Rn 1 g) (g_DT g) (g_phase g k) (pairwise g (d_S D2)) (pairwise g (d_r1 D2)) (pairwise g (d_r2 D2)) i j a b = c0).
  { intros i0 j0 a b. unfold block. apply csum_all0. intros n Hn. destruct (skipped _ _ _ n i0 j0); [reflexivity|]. unfold ht_image. rewrite (rsum_ext _ _ (fun _ => 0)); [rewrite rsum_zero; unfold cscale; apply cplx_eq; cbn; ring|].
    intros q _. unfold ht. rewrite (rsum_ext _ _ (fun _ => 0)); [rewrite rsum_zero; ring|]. intros e _. unfold pairwise, D2. cbn [d_S]. ring. }
  rewrite !B. destruct (Nat.ltb_spec i j); [rewrite (proj2 (Nat.eqb_neq i j)) by lia; reflexivity|]. destruct (Nat.ltb_spec j i).
  - rewrite (proj2 (Nat.eqb_neq i j)) by lia. apply cplx_eq; cbn; ring.
  - assert (i = j) by lia. subst j. rewrite !Nat.eqb_refl. apply cplx_eq; cbn; ring.
Qed.
Lemma assembled_one erfc gamma_cut goal g X : assemble erfc 1 1 true gamma_cut goal (/ 10) 0 true D2 g = Some X -> s_norb X = g_N g /\ s_nk X = g_nk g /\ forall k i j, (i < g_N g)%nat -> (j < g_N g)%nat -> s_S X k i j = if (i =? j)%nat then c1 else c0.
Proof.
  unfold assemble. destruct (too_close _ _ _); [discriminate|]. destruct (g_gamma _ _ _ _ _ _ _); try discriminate. destruct (get_neighbours _ _ _ _ _ _); try discriminate. intros E. injection E as <-. cbn [s_norb s_S s_nk]. split; [apply first_one|]. split; [reflexivity|]. intros k i j Hi Hj. apply overlap_one; assumption.
Qed.
(** ** a dimer as a wedge of one atom with angle pi *)
Definition zw (n : nat) : Z := if (n =? 0)%nat then 0%Z else 1%Z.
Definition gw : structure := {| g_N := 1; g_r := fun _ => V3 (/ 2) 0 0; g_kind := fun _ => 0%nat; g_nimg := 2; g_O := fun n => rotz (IZR (zw n) * (2 * PI / INR 2)); g_t := fun _ => vzero; g_DT := fun n => Drep (rotz (IZR (zw n) * (2 * PI / INR 2))); g_nk := 2;
  g_phase := fun k n => cis (2 * PI * INR k / INR 2 * IZR (zw n)); g_wk := fun _ => 1 / INR 2; g_ranges := ((Some (- (Z.of_nat (2 - 1) / 2)), Some (Z.of_nat 2 / 2)), (Some 0, Some 0), (Some 0, Some 0))%Z;
  g_tr0 := fun _ => vzero; g_rot := fun n => rotz (IZR (t1 n) * (2 * PI / INR 2)); g_pp := fun _ _ _ => 0; g_dpp := fun _ _ _ => 0; g_rc := 0; g_ext := fun _ => 0; g_charge := 0 |}.
Definition hw : structure := g2 (fun c => vadd (mv (wedge_turn 2 c) (V3 (/ 2) 0 0)) vzero) (fun _ => 0%nat).
Example ex_wedge : wedge 2 zw gw.
Proof. constructor; try reflexivity; try lia. intros n n' H H'. two n; two n'; cbn; intros E; try reflexivity; discriminate. Qed.
Example ex_molecule : molecule hw.
Proof. constructor; reflexivity. Qed.
Example ex_ring : placed 2 (wedge_turn 2) (fun _ => vzero) gw hw.
Proof.
  constructor; cbn [hw gw g2 g_N g_kind g_r g_pp g_dpp g_rc g_ext g_charge]; try reflexivity; try lia.
  - intros c I _ HI. assert (I = 0%nat) by lia. subst I. replace (c * 1 + 0)%nat with c by lia. reflexivity.
  - intros c I _ _. reflexivity.
  - ring.
Qed.
Example ex_wedge_sound : sound D2 gw (fun i => i) /\ sound D2 hw (fun i => i).
Proof.
  split; [|apply ex_sound]. assert (E : forall n, rotz (IZR (zw n) * (2 * PI / INR 2) + IZR (zw n) * (2 * PI / INR 2)) = eye).
  { intros n. rewrite <- rotz_0. apply (rotz_whole _ _ (zw n)). change (INR 2) with 2. field. }
  constructor; cbn [gw g_N g_nimg g_O g_t g_DT g_phase g_nk g_pp g_dpp D2 d_no d_H d_S d_onsite]; try reflexivity.
  - constructor; try lia; try reflexivity.
    + split; [|reflexivity]. change (zw 0) with 0%Z. rewrite Rmult_0_l. apply rotz_0.
    + intros n p q _. apply mv_dot. apply rotz_orthogonal.
    + intros n p _. rewrite !mv_add, mv_vzero. rewrite <- mv_mm, rotz_plus, E, mv_eye. apply v3_eq; vunf; ring.
  - intros k n _ _. rewrite cis_conj. apply (cis_whole _ _ (Z.of_nat k * zw n * 1)). rewrite !mult_IZR, <- INR_IZR_INZ. change (INR 2) with 2. field.
  - intros _. left. reflexivity.
  - intros K d. exists (fun c => if (c =? 9)%nat then - exp (- d) else 0). apply D2_H.
  - intros K d. exists (fun _ => 0). apply D2_0.
Qed.
Lemma hw_apart : vnorm (vsub (g_r hw 1%nat) (g_r hw 0%nat)) = 1.
Proof.
  cbn [hw g2 g_r]. unfold wedge_turn. replace (INR 1 * (2 * PI / INR 2)) with PI by (change (INR 1) with 1; change (INR 2) with 2; field). replace (INR 0 * (2 * PI / INR 2)) with 0 by (change (INR 0) with 0; ring). rewrite rotz_0, mv_eye. unfold rotz. rewrite cos_PI, sin_PI.
  unfold vnorm. replace (vdot _ _) with 1 by (vunf; field). apply sqrt_1.
Qed.
Example ex_wedge_systems erfc goal : exists X Y, assemble erfc 1 1 true None goal (/ 10) 0 true D2 gw = Some X /\ assemble erfc 1 1 true None goal (/ 10) 0 true D2 hw = Some Y /\ (forall w0, reliable z1 w0 X) /\ forall w0, reliable z2 w0 Y.
Proof.
  destruct (ex_assembled erfc goal (g_r hw) (fun _ => 0%nat) hw_apart) as (Y & EY & RY). change (g2 (g_r hw) (fun _ => 0%nat)) with hw in EY.
  pose proof (assembled_copies 2 (wedge_phase 2) (wedge_turn 2) (fun _ => vzero) (wedge_image 2 zw) D2 1 gw hw (wedge_copies 2 zw D2 1 gw hw ex_wedge ex_molecule ex_ring) (fun i => i) (fun i => i) (proj1 ex_wedge_sound) (proj2 ex_wedge_sound) ex_one_table erfc 1 true None goal (/ 10) 0 true) as A.
  rewrite EY in A. destruct (assemble erfc 1 1 true None goal (/ 10) 0 true D2 gw) as [X|] eqn:EX.
  - exists X, Y. split; [reflexivity|]. split; [exact EY|]. split; [|exact RY]. intros w0. destruct (assembled_one _ _ _ _ _ EX) as (En & _ & ES). apply z1_reliable; [exact En|]. intros k. rewrite ES by (cbn; lia). reflexivity.
  - exfalso. apply A. intros _. eexists _, _, _. apply (wedge_cells 2 zw gw hw ex_wedge ex_molecule None).
Qed.
(** ** a screw of atoms with one and with two atoms per cell *)
Definition z3 (n : nat) : Z := match n with 0%nat => 0 | 1%nat => 1 | _ => -1 end%Z.
Definition turn3 (n : nat) : nat := match n with 0%nat => 0 | 1%nat => 2 | 2%nat => 1 | n => n end%nat.
Definition screw3 (N : nat) (r : nat -> v3) (beta : R) (a : v3) (nk : nat) (kappa : nat -> R) (wk : R) : structure := {| g_N := N; g_r := r; g_kind := fun _ => 0%nat; g_nimg := 3; g_O := fun n => rotz (IZR (z3 n) * beta); g_t := fun n => vscale (IZR (z3 n)) a;
  g_DT := fun n => Drep (rotz (IZR (z3 n) * beta)); g_nk := nk; g_phase := fun k n => cis (kappa k * IZR (z3 n)); g_wk := fun _ => wk; g_ranges := ((Some 0, Some 0), (Some 0, Some 0), (None, None))%Z;
  g_tr0 := fun n => vscale (IZR (t3 n)) a; g_rot := fun n => rotz (IZR (t3 n) * beta); g_pp := fun _ _ _ => 0; g_dpp := fun _ _ _ => 0; g_rc := 0; g_ext := fun _ => 0; g_charge := 0 |}.
Lemma along_axis t s : mv (rotz t) (V3 0 0 s) = V3 0 0 s.
Proof. unfold rotz. apply v3_eq; vunf; ring. Qed.
Lemma scaled_axis x s : vscale x (V3 0 0 s) = V3 0 0 (x * s).
Proof. apply v3_eq; vunf; ring. Qed.
Lemma screw3_chain N r beta s nk kappa wk : chain z3 beta (V3 0 0 s) kappa (screw3 N r beta (V3 0 0 s) nk kappa wk).
Proof.
  constructor; cbn [screw3 g_nimg g_O g_t g_nk g_phase g_ranges g_rot g_tr0]; try reflexivity; try lia.
  - intros n n' H H'. destruct n as [|[|[|n]]]; [| | |lia]; (destruct n' as [|[|[|n']]]; [| | |lia]); cbn; intros E; try reflexivity; discriminate.
  - intros l. apply along_axis.
Qed.
Lemma screw3_sound N r beta s nk kappa wk : sound D2 (screw3 N r beta (V3 0 0 s) nk kappa wk) turn3.
Proof.
  assert (Z : forall n, (n < 3)%nat -> z3 (turn3 n) = (- z3 n)%Z) by (intros n H; destruct n as [|[|[|n]]]; [reflexivity|reflexivity|reflexivity|lia]).
  constructor; cbn [screw3 g_N g_nimg g_O g_t g_DT g_phase g_nk g_pp g_dpp D2 d_no d_H d_S d_onsite]; try reflexivity.
  - constructor; try lia; try reflexivity.
    + change (z3 0) with 0%Z. split; [|apply v3_eq; vunf; ring]. rewrite Rmult_0_l. apply rotz_0.
    + intros n p q _. apply mv_dot. apply rotz_orthogonal.
    + intros n Hn. destruct n as [|[|[|n]]]; [| | |lia]; cbn; split; try reflexivity; lia.
    + intros n p Hn. rewrite (Z n Hn), opp_IZR. rewrite mv_add, !scaled_axis, along_axis, <- mv_mm, rotz_plus. replace (- IZR (z3 n) * beta + IZR (z3 n) * beta) with 0 by ring. rewrite rotz_0, mv_eye. apply v3_eq; vunf; ring.
  - intros k n _ Hn. rewrite (Z n Hn), opp_IZR, cis_conj. f_equal. ring.
  - intros _. left. reflexivity.
  - intros K d. exists (fun c => if (c =? 9)%nat then - exp (- d) else 0). apply D2_H.
  - intros K d. exists (fun _ => 0). apply D2_0.
Qed.
Definition kone (k : nat) : R := 0.
Definition ktwo (k : nat) : R := 2 * PI * INR k / INR 2.
Definition gs : structure := screw3 1 (fun _ => V3 1 0 0) 1 (V3 0 0 6) 2 ktwo (1 / INR 2).
Definition hs : structure := screw3 2 (fun c => vadd (mv (rotz (INR c * 1)) (V3 1 0 0)) (vscale (INR c) (V3 0 0 6))) (INR 2 * 1) (vscale (INR 2) (V3 0 0 6)) 1 kone 1.
Lemma norm_z v : Rabs (vz v) <= vnorm v.
Proof. unfold vnorm. rewrite <- sqrt_Rsqr_abs. apply sqrt_le_1_alt. unfold Rsqr. vunf. nra. Qed.
Lemma reach_z l I J : vz (reach gs 1 (V3 0 0 6) l I J) = - (6 * IZR l).
Proof. unfold reach, gs, screw3. cbn [g_r]. unfold rotz. vunf. ring. Qed.
Lemma reach_far l q I J : (q <= Z.abs l)%Z -> 6 * IZR q <= vnorm (reach gs 1 (V3 0 0 6) l I J).
Proof. intros H. apply (Rle_trans _ _ _) with (2 := norm_z _). rewrite reach_z, Rabs_Ropp, Rabs_mult, (Rabs_right 6) by lra. rewrite <- abs_IZR. apply IZR_le in H. lra. Qed.
Example ex_longer : longer 2 z3 z3 1 (V3 0 0 6) ktwo kone D2 1 gs hs.
Proof.
  constructor.
  - lia.
  - apply screw3_chain.
  - unfold hs. rewrite scaled_axis. apply screw3_chain.
  - constructor; cbn [hs gs screw3 g_N g_kind g_r g_pp g_dpp g_rc g_ext g_charge]; try reflexivity; try lia.
    + intros c I _ HI. assert (I = 0%nat) by lia. subst I. replace (c * 1 + 0)%nat with c by lia. reflexivity.
    + intros c I _ _. reflexivity.
    + ring.
  - reflexivity.
  - intros k j Hk Hj. cbn in Hk. assert (k = 0%nat) by lia. subst k. unfold ktwo, kone. replace (0 * 2 + j)%nat with j by lia. change (INR 2) with 2. field.
  - intros k j _ _. reflexivity.
  - intros l I J _ _. destruct (Z_lt_le_dec 1 (Z.abs l)) as [H|H].
    + right. assert (E : vscale (/ 1) (reach gs 1 (V3 0 0 6) l I J) = reach gs 1 (V3 0 0 6) l I J) by (apply v3_eq; vunf; field). rewrite E. pose proof (reach_far l 2 I J ltac:(lia)). unfold beyond. cbn [D2 d_r2 d_rmax gs screw3 g_rc]. lra.
    + left. split.
      * assert (Hl : (l = 0 \/ l = 1 \/ l = -1)%Z) by lia. destruct Hl as [->|[->| ->]]; [exists 0%nat|exists 1%nat|exists 2%nat]; split; try reflexivity; cbn; lia.
      * intros c Hc. assert (Hl : (l = 0 \/ l = 1 \/ l = -1)%Z) by lia. two c.
        -- destruct Hl as [->|[->| ->]]; [exists 0%nat, 0%nat|exists 1%nat, 0%nat|exists 1%nat, 2%nat]; cbn; repeat split; lia.
        -- destruct Hl as [->|[->| ->]]; [exists 1%nat, 0%nat|exists 0%nat, 1%nat|exists 0%nat, 0%nat]; cbn; repeat split; lia.
Qed.
Example ex_visited : visited (Some 30) 1 (V3 0 0 6) gs.
Proof. intros l I J Hl _ _. pose proof (reach_far l 5 I J ltac:(lia)). lra. Qed.
Example ex_longer_sound : sound D2 gs turn3 /\ sound D2 hs turn3.
Proof. split; [apply screw3_sound|]. unfold hs. rewrite scaled_axis. apply screw3_sound. Qed.
Example ex_longer_systems erfc goal : exists X Y, assemble erfc 1 1 true (Some 30) goal (/ 10) 0 true D2 gs = Some X /\ assemble erfc 1 1 true (Some 30) goal (/ 10) 0 true D2 hs = Some Y /\ (forall w0, reliable z1 w0 X) /\ forall w0, reliable z2 w0 Y.
Proof.
  pose proof (longer_copies 2 z3 z3 1 (V3 0 0 6) ktwo kone D2 1 gs hs ex_longer) as C.
  assert (EX : exists X, assemble erfc 1 1 true (Some 30) goal (/ 10) 0 true D2 gs = Some X).
  { unfold assemble. assert (T : too_close (g_N gs) (g_nimg gs) (g_Rn 1 gs) = false).
    { apply too_close_tested. intros i j n Hi Hj Hn L. cbn in Hi, Hj, Hn. assert (i = 0%nat) by lia. assert (j = 0%nat) by lia. subst i j. destruct n as [|n]; [reflexivity|]. apply orb_true_iff. right. apply ltb_true.
      pose proof (far_g 2 z3 z3 1 (V3 0 0 6) ktwo kone D2 1 gs hs ex_longer (S n) 0 0 Hn ltac:(cbn; lia) ltac:(cbn; lia)) as F. change (mdist (g_Rn 1 gs) (S n) 0 0) with (dist (g_Rn 1 gs) (S n) 0 0). rewrite F. assert (E : forall v, vscale (/ 1) v = v) by (intros; apply v3_eq; vunf; field). rewrite E.
      assert (Hz : (1 <= Z.abs (z3 (S n)))%Z) by (destruct n as [|[|n]]; [cbn; lia|cbn; lia|lia]). pose proof (reach_far (z3 (S n)) 1 0 0 Hz). lra. }
    rewrite T. unfold g_gamma, gauss_gamma, get_neighbours.
    assert (L : leb (rmaxn (g_N gs - 1) (fun I => d_FWHM D2 (g_kind gs I))) 0 = false) by (apply leb_false; cbn; lra). rewrite L. cbn [gs screw3 g_ranges scan].
    match goal with |- context [existsb ?p ?l] => assert (Z : existsb p l = false) end.
    { apply not_true_iff_false. intros E. apply existsb_exists in E. destruct E as (b & _ & E). unfold D2 in E. cbn [d_FWHM] in E. destruct (Req_EM_T (2 ^ 2 + 2 ^ 2) 0); [lra|discriminate]. }
    rewrite Z. eexists. reflexivity. }
  destruct EX as (X & EX). pose proof (assembled_copies _ _ _ _ _ D2 1 gs hs C turn3 turn3 (proj1 ex_longer_sound) (proj2 ex_longer_sound) ex_one_table erfc 1 true (Some 30) goal (/ 10) 0 true) as A.
  rewrite EX in A. destruct (assemble erfc 1 1 true (Some 30) goal (/ 10) 0 true D2 hs) as [Y|] eqn:EY.
  - exists X, Y. split; [exact EX|]. split; [reflexivity|]. destruct (assembled_one _ _ _ _ _ EX) as (En & _ & ES). destruct (assembled_one _ _ _ _ _ EY) as (En' & _ & ES'). split; intros w0.
    + apply z1_reliable; [exact En|]. intros k. rewrite ES by (cbn; lia). reflexivity.
    + apply z2_reliable; [exact En'|]. intros k i j _ Hi Hj. apply ES'; cbn; assumption.
  - exfalso. apply A. intros _. eexists _, _, _. apply (longer_cells 2 z3 z3 1 (V3 0 0 6) ktwo kone D2 1 gs hs ex_longer (Some 30) ex_visited).
Qed.
(** ** roots and solvers *)
Definition some_root (f : R -> R) (a b t : R) : option R := if Req_EM_T (f a) 0 then Some a else if Req_EM_T (f b) 0 then Some b else if Req_EM_T (f ((a + b) / 2)) 0 then Some ((a + b) / 2) else None.
Example ex_root : scale_free some_root /\ exact_roots some_root.
Proof.
  split.
  - intros c f a b t Hc. unfold some_root. assert (E : forall x, c * f x = 0 <-> f x = 0) by (intros x; split; [intros H; apply Rmult_integral in H; destruct H; lra|intros ->; ring]).
    destruct (Req_EM_T (c * f a) 0) as [H|H], (Req_EM_T (f a) 0) as [H'|H']; try (exfalso; apply E in H || (apply H, E); tauto); [reflexivity|].
    destruct (Req_EM_T (c * f b) 0) as [K|K], (Req_EM_T (f b) 0) as [K'|K']; try (exfalso; apply E in K || (apply K, E); tauto); [reflexivity|].
    destruct (Req_EM_T (c * f ((a + b) / 2)) 0) as [L|L], (Req_EM_T (f ((a + b) / 2)) 0) as [L'|L']; try (exfalso; apply E in L || (apply L, E); tauto); reflexivity.
  - intros f a b t x. unfold some_root. destruct (Req_EM_T (f a) 0); [intros E; injection E as <-; assumption|]. destruct (Req_EM_T (f b) 0); [intros E; injection E as <-; assumption|]. destruct (Req_EM_T (f ((a + b) / 2)) 0); [intros E; injection E as <-; assumption|discriminate].
Qed.
Definition one_equation (q : nat) (A : nat -> nat -> R) (b : vec) : option vec := if (q =? 1)%nat then if Req_EM_T (A 0%nat 0%nat) 0 then None else Some (fun _ => b 0%nat / A 0%nat 0%nat) else None.
Example ex_solver : scaled_solver one_equation.
Proof.
  intros c q A b A' b' Hc HA Hb. unfold one_equation. destruct (Nat.eqb_spec q 1) as [->|]; [|reflexivity]. rewrite (HA 0%nat 0%nat) by lia. rewrite (Hb 0%nat) by lia.
  destruct (Req_EM_T (c * A 0%nat 0%nat) 0) as [E|E], (Req_EM_T (A 0%nat 0%nat) 0) as [F|F]; try reflexivity.
  - exfalso. apply Rmult_integral in E. destruct E; lra.
  - exfalso. apply E. rewrite F. ring.
  - f_equal. apply FunctionalExtensionality.functional_extensionality. intros _. field. split; [exact F|lra].
Qed.
