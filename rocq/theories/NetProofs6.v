From Coq Require Import Reals ZArith List Bool Arith Permutation Lia Lra FunctionalExtensionality.
From Verif Require Import Vec GeomModel GeomSpec GeomProofs CoulModel MixModel PairModel PairSpec PairProofs SkModel SkSpec SkProofs6 Cpx RhoModel RhoSpec RhoProofs EigModel EigSpec InvModel InvSpec InvLin InvProofs InvProofs2 InvProofs3 InvProofs8 InvProofs9 InvProofs10 InvProofs11 InvProofs13 GamModel GamSpec GamProofs GamProofs2 GamProofs3 GamProofs4 FrcSpec FrcProofs FrcProofs2 BndProofs4 FoldProofs9 FoldProofs11 NetSpec NetProofs NetProofs2 NetProofs3 NetProofs4 NetProofs5.
Import ListNotations.
Open Scope R_scope.

Section Main.
Context (erfc : R -> R) (Bohr Hartree : R) (gaussian : bool) (gamma_cut : option R) (goal width sepsilon : R) (scc : bool) (D : database) (g : structure) (inv : nat -> nat).
Context (Sg : sound D g inv) (OT : one_table D) (HB : Bohr <> 0) (w om : v3) (SM : symmetric_motion w om g).
Notation uI := (fun I => rigid_velocity w om (g_r g I)).
Lemma place_difference n i j : (n < g_nimg g)%nat ->
  vsub (mv (g_O g n) (uI j)) (uI i) = vscale Bohr (vcross om (PairProofs.A (g_O g) (t_of Bohr g) (r_of Bohr g) n i j)).
Proof.
  intros Hn. cbv beta. rewrite (motion_difference w om (g_O g n) (g_t g n) (g_r g i) (g_r g j) (y_images _ _ _ SM n Hn)).
  assert (E0 : PairProofs.A (g_O g) (t_of Bohr g) (r_of Bohr g) n i j = vscale (/ Bohr) (vsub (vadd (mv (g_O g n) (g_r g j)) (g_t g n)) (g_r g i))).
  { unfold PairProofs.A, rijn. rewrite <- g_Rn_is. unfold g_Rn. destruct (im_id _ _ _ _ (u_images _ _ _ Sg)) as [I1 I2]. rewrite I1, I2, mv_eye. generalize (vadd (mv (g_O g n) (g_r g j)) (g_t g n)). intros q0. destruct q0, (g_r g i). unfold vsub, vscale, vadd, vzero. cbn. f_equal; ring. }
  rewrite E0. generalize (vsub (vadd (mv (g_O g n) (g_r g j)) (g_t g n)) (g_r g i)). intros [p1 p2 p3]. destruct om as [o1 o2 o3]. unfold vcross, vscale. cbn [vx vy vz]. f_equal; field; exact HB.
Qed.
Lemma pairs_net dV rc : (forall I J d, (I < g_N g)%nat -> (J < g_N g)%nat -> dV I J d = dV J I d) -> rsum (g_N g) (fun I => vdot (force (g_N g) (g_nimg g) (g_Rn Bohr g) dV rc I) (uI I)) = 0.
Proof.
  intros H. rewrite g_Rn_is. apply (pair_net (g_N g) (g_nimg g) (g_O g) (t_of Bohr g) inv (images_scaled _ _ _ _ (/ Bohr) (u_images _ _ _ Sg)) dV rc (r_of Bohr g) uI H Bohr om). apply place_difference.
Qed.
Lemma terms_sym cs G dG i j d : scan gamma_cut (g_ranges g) = Some cs -> g_gamma erfc Bohr gaussian gamma_cut goal D g = GOk G dG -> (i < g_N g)%nat -> (j < g_N g)%nat -> terms erfc gaussian D g i j d = terms erfc gaussian D g j i d.
Proof.
  intros Es EG Hi Hj. unfold terms. destruct gaussian; [apply gauss_sym|]. rewrite (g_gamma_at _ _ _ _ _ _ _ cs Es) in EG. cbn [andb] in EG.
  destruct (leb (rmin (g_N g - 1) (fun I => d_U D (g_kind g I))) 0) eqn:El; [discriminate|]. apply leb_false in El.
  assert (U : forall I, (I < g_N g)%nat -> 0 < tau (d_U D (g_kind g I))).
  { intros I HI. assert (0 < d_U D (g_kind g I)); [|unfold tau; lra]. eapply Rlt_le_trans; [exact El|]. apply (rmin_le (g_N g - 1) (fun I => d_U D (g_kind g I)) I). lia. }
  apply slater_sym; apply U; assumption.
Qed.
Lemma gamma_net X q : closed_cells g -> assemble erfc Bohr Hartree gaussian gamma_cut goal width sepsilon true D g = Some X ->
  rsum (g_N g) (fun I => rsum 3 (fun c => vel g w om c I * gamma_force (s_N X) true q (s_dG X c) (s_field X q c) I)) = 0.
Proof.
  intros CC. unfold assemble. destruct (too_close _ _ _); [discriminate|]. destruct (g_gamma erfc Bohr gaussian gamma_cut goal D g) as [G dG| | |] eqn:EG; try discriminate.
  destruct (get_neighbours _ _ _ _ _ _) as [l|] eqn:EN; [|discriminate]. intros E. injection E as <-. cbn [s_N s_dG s_field].
  destruct (neighbours_of _ _ _ _ _ _ _ EN) as (cs & Es & El). destruct (CC _ _ Es) as (tr0 & rot & ci & Hag & Hci).
  assert (EL : flat_map (cell_neighbours (g_N g) (g_r g) (g_tr0 g) (g_rot g) gamma_cut) cs = flat_map (cell_neighbours (g_N g) (g_r g) tr0 rot gamma_cut) cs).
  { rewrite !flat_map_concat_map. f_equal. apply map_ext_in. intros c Hc. destruct (Hag c Hc) as [A1 A2]. unfold cell_neighbours, mask, drv, image. rewrite A1, A2. reflexivity. }
  assert (Mv : forall c, In c cs -> moves_along w om (rot c) (tr0 c)) by (intros c Hc; destruct (Hag c Hc) as [-> ->]; exact (y_cells _ _ _ SM _ _ c Es Hc)).
  assert (EdG : dG = gamma_dG Bohr (terms erfc gaussian D g) (flat_map (cell_neighbours (g_N g) (g_r g) (g_tr0 g) (g_rot g) gamma_cut) cs)).
  { pose proof EG as EG'. rewrite (g_gamma_at _ _ _ _ _ _ _ cs Es) in EG'. unfold nbs in EG'. destruct (if gaussian then _ else _); [discriminate|]. destruct (gaussian && _)%bool; [discriminate|]. injection EG' as _ E2. symmetry. exact E2. }
  pose proof (coul_net cs tr0 rot ci Hci (g_N g) gamma_cut Bohr (terms erfc gaussian D g) q (g_r g) w om Mv (fun i j d Hi Hj => terms_sym cs G dG i j d Es EG Hi Hj)) as E1.
  pose proof (coul_net cs tr0 rot ci Hci (g_N g) gamma_cut 1 (dterm erfc gamma_cut) q (g_r g) w om Mv (fun i j d _ _ => eq_refl)) as E2.
  rewrite <- EL, <- EdG in E1. rewrite <- EL, <- El in E2. transitivity (0 + Bohr ^ 2 * 0); [|ring]. rewrite <- E1 at 1. rewrite <- E2. rewrite <- rsum_scal, <- rsum_plus. apply rsum_ext. intros I HI. unfold gamma_force.
  rewrite (rsum_ext 3 _ (fun c => q I * (rsum (g_N g) (fun J => q J * (vel g w om c I * comp c (dG I J))) + Bohr ^ 2 * rsum (g_N g) (fun J => q J * (vel g w om c I * comp c (gamma_dG 1 (dterm erfc gamma_cut) l I J)))))).
  2:{ intros c _. rewrite (E_is erfc gamma_cut (g_N g) l q c I).
      - rewrite (rsum_ext (g_N g) (fun J => q J * (vel g w om c I * comp c (dG I J))) (fun J => vel g w om c I * (q J * comp c (dG I J)))) by (intros; ring).
        rewrite (rsum_ext (g_N g) (fun J => q J * (vel g w om c I * comp c (gamma_dG 1 (dterm erfc gamma_cut) l I J))) (fun J => vel g w om c I * (q J * comp c (gamma_dG 1 (dterm erfc gamma_cut) l I J)))) by (intros; ring).
        rewrite !rsum_scal. ring.
      - intros b Hb. subst l. apply (nb_range gamma_cut (g_N g) (g_r g) (g_tr0 g) (g_rot g) cs b Hb). }
  rewrite rsum_scal, rsum_plus, rsum_scal.
  assert (K : forall (F : nat -> v3), rsum 3 (fun c => rsum (g_N g) (fun J => q J * (vel g w om c I * comp c (F J)))) = rsum (g_N g) (fun J => q J * vdot (F J) (uI I))).
  { intros F. rewrite rsum_swap. apply rsum_ext. intros J _. rewrite rsum_scal. f_equal. unfold vel. cbn [rsum comp]. unfold vdot. ring. }
  rewrite !K. ring.
Qed.
Context (z : lapack) (evmin : (nat -> nat -> cplx) -> R) (w0 : nat -> nat -> R) (MAXE : R) (brentq : (R -> R) -> R -> R -> R -> option R) (m : mixer).
Context (tol_norm tol_mull tol_im : R) (maxiter : nat) (X : system) (Ht : 0 <= tol_norm).
Context (EX : assemble erfc Bohr Hartree gaussian gamma_cut goal width sepsilon scc D g = Some X) (RX : reliable z w0 X).
Lemma assembled_parts : too_close (g_N g) (g_nimg g) (g_Rn Bohr g) = false /\ s_N X = g_N g /\ s_nk X = g_nk g /\ s_norb X = first_orbital (g_no D g) (g_N g) /\ s_o1 X = first_orbital (g_no D g) /\ s_no X = g_no D g /\
  s_H0 X = (fun k => flat D g (g_matrix Bohr D g (fun I => d_onsite D (g_kind g I)) (d_H D) k)) /\ s_S X = (fun k => flat D g (g_matrix Bohr D g (fun _ _ => 1 + sepsilon) (d_S D) k)) /\
  s_dH0 X = (fun c k => flat D g (g_dmatrix Bohr D g (d_H D) (d_dH D) c k)) /\ s_dS X = (fun c k => flat D g (g_dmatrix Bohr D g (d_S D) (d_dS D) c k)) /\
  (forall c I, s_frep X c I = comp c (force (g_N g) (g_nimg g) (g_Rn Bohr g) (pairwise g (d_dvrep D)) (d_rmax D) I)) /\ (forall c I, s_fpp X c I = comp c (force (g_N g) (g_nimg g) (g_Rn Bohr g) (g_dpp g) (g_rc g) I)).
Proof.
  revert EX. unfold assemble. destruct (too_close _ _ _); [discriminate|]. destruct scc.
  - destruct (g_gamma _ _ _ _ _ _ _); try discriminate. destruct (get_neighbours _ _ _ _ _ _); try discriminate. intros E. injection E as <-. repeat split.
  - intros E. injection E as <-. repeat split.
Qed.
(** the work of the forces in a motion that moves the images along *)
Lemma motion_net s u r it n : (scc = true -> closed_cells g) -> calculate z evmin w0 MAXE brentq m tol_norm tol_mull tol_im Hartree Bohr scc maxiter X s u = Solved r it n ->
  rsum (g_N g) (fun I => vdot (force_on r I) (uI I)) = 0.
Proof.
  intros CC. unfold calculate. destruct (get_states _ _ _ m scc maxiter s u) as [[p it0| | |] cnt] eqn:GS; try discriminate.
  destruct (finish MAXE brentq tol_mull tol_im Hartree Bohr scc X p) as [r'|] eqn:EF; [|discriminate]. intros E. injection E as -> _ _.
  destruct assembled_parts as (HC & EN & Ek & En & Eo & Eno & EH & ES & EdH & EdS & Efr & Efp).
  assert (PS : exists h H1, by_atoms D g h /\ pass z evmin w0 tol_norm X H1 = Some p /\ h = match H1 with Some h => h | None => fun _ _ => 0 end /\ (scc = false -> h = fun _ _ => 0)).
  { unfold get_states in GS. destruct scc.
    - apply loop_pass in GS. destruct GS as [dq GS]. exists (h1_of X dq), (Some (h1_of X dq)). split; [apply h1_atoms; assumption|]. split; [exact GS|]. split; [reflexivity|discriminate].
    - destruct maxiter; [discriminate|]. destruct (pass z evmin w0 tol_norm X None) as [q|] eqn:EP; [|discriminate]. destruct (charges _ _ _ _ q); [|discriminate]. exists (fun _ _ => 0), None. split; [apply zero_atoms|]. split; [rewrite EP; congruence|]. split; reflexivity. }
  destruct PS as (h & H1 & Hh & EP & Eh & Eh0).
  pose proof (assembled_proper _ _ _ _ _ _ _ _ _ _ _ _ _ Sg EX) as PX.
  destruct (solve_one tol_norm Ht X z w0 evmin H1 PX RX) as (e & wf & EA & _ & SO & _). { intros h' E'. subst H1 h. exact (proj1 Hh). }
  unfold pass in EP. rewrite EA in EP. rewrite <- Eh in EP, SO. injection EP as <-.
  unfold finish in EF. destruct (occupations _ _ _ _) as [f|]; [|discriminate]. destruct (charges _ _ _ _ _) as [dq|]; [|discriminate]. destruct (negb _); [discriminate|].
  destruct (band_structure_energy _ _ _ _ _ _) as [ebs|]; [|discriminate]. destruct (s_erep X) as [erep|]; [|discriminate]. injection EF as <-.
  unfold force_on. cbn [r_force]. set (bs := fun c I => band_structure_force (s_norb X) (s_nk X) (s_o1 X) (s_no X) (s_wk X) (dH_scc scc h (s_dH0 X c) (s_dS X c)) (s_dS X c) (density X wf f) (density_e X wf f e) I).
  set (gf := fun c I => gamma_force (s_N X) scc dq (s_dG X c) (s_field X dq c) I).
  assert (EB : rsum (g_N g) (fun I => rsum 3 (fun c => vel g w om c I * bs c I)) = 0).
  { destruct (small_rotation_exists om) as [L SR]. unfold bs. rewrite En, Ek, Eo, Eno.
    assert (TS : forall k i j, (k < g_nk g)%nat -> (i < first_orbital (g_no D g) (g_N g))%nat -> (j < first_orbital (g_no D g) (g_N g))%nat ->
      cadd (along (uo D g w om) (s_dS X) k i j) (cconj (along (uo D g w om) (s_dS X) k j i)) = two_sided (first_orbital (g_no D g) (g_N g)) (turning D g Bohr L) (s_S X k) i j).
    { rewrite ES, EdS. intros k i j. apply (turned_matrix D g inv Bohr Sg OT HB HC w om (y_images _ _ _ SM) L SR (fun _ _ => 1 + sepsilon) (d_S D) (d_dS D) (o_S _ OT) (o_dS _ OT) (u_S _ _ _ Sg)). reflexivity. }
    assert (TH : forall k i j, (k < g_nk g)%nat -> (i < first_orbital (g_no D g) (g_N g))%nat -> (j < first_orbital (g_no D g) (g_N g))%nat ->
      cadd (along (uo D g w om) (s_dH0 X) k i j) (cconj (along (uo D g w om) (s_dH0 X) k j i)) = two_sided (first_orbital (g_no D g) (g_N g)) (turning D g Bohr L) (s_H0 X k) i j).
    { rewrite EH, EdH. intros k i j. apply (turned_matrix D g inv Bohr Sg OT HB HC w om (y_images _ _ _ SM) L SR (fun I => d_onsite D (g_kind g I)) (d_H D) (d_dH D) (o_H _ OT) (o_dH _ OT) (u_H _ _ _ Sg)).
      intros I a b E. apply (u_onsite _ _ _ Sg). exact E. }
    destruct PX as [PH PSx]. rewrite En, Ek in PH, PSx, SO.
    unfold density, density_e. rewrite En.
    apply (band_net (first_orbital (g_no D g) (g_N g)) (g_N g) (g_nk g) (first_orbital (g_no D g)) (g_no D g) (s_wk X) (fun c => dH_scc scc h (s_dH0 X c) (s_dS X c)) (s_dS X)
      (fun k i j => cadd (s_H0 X k i j) (cscale (h i j) (s_S X k i j))) (s_S X) wf f e (turning D g Bohr L) (uo D g w om) (vel g w om)).
    - apply orbital_layout.
    - intros k Hk i j Hi Hj. rewrite (PH k Hk i j Hi Hj), (PSx k Hk i j Hi Hj) at 1. rewrite (proj1 Hh i j), cconj_add, !cscale_rc, cconj_mul, cconj_rc. reflexivity.
    - exact PSx.
    - intros k a i Hk Ha Hi. apply (SO k Hk a i Ha Hi).
    - intros c0 I a HI Ha. unfold uo. rewrite at_orbital by assumption. reflexivity.
    - intros k i j Hk Hi Hj. destruct scc.
      + unfold dH_scc. apply (sum_h D g Bohr w om L h (s_dH0 X) (s_dS X) (s_H0 X k) (s_S X k) k i j Hh Hi Hj (TH k i j Hk Hi Hj) (TS k i j Hk Hi Hj)).
      + unfold dH_scc. rewrite (two_h D g Bohr L h (s_H0 X k) (s_S X k) i j Hh Hi Hj), Eh0 by reflexivity. change (along (uo D g w om) (fun c : nat => s_dH0 X c)) with (along (uo D g w om) (s_dH0 X)). rewrite (TH k i j Hk Hi Hj). apply cplx_eq; cbn; ring.
    - exact TS. }
  assert (EG : rsum (g_N g) (fun I => rsum 3 (fun c => vel g w om c I * gf c I)) = 0).
  { unfold gf. destruct scc; [apply gamma_net; [apply CC; reflexivity|exact EX]|]. unfold gamma_force. rewrite (rsum_ext (g_N g) _ (fun _ => 0)); [apply rsum_zero|]. intros I _. cbn [rsum]. ring. }
  pose proof (pairs_net (pairwise g (d_dvrep D)) (d_rmax D) (fun I J d _ _ => o_dvrep _ OT _ _ d)) as ER.
  pose proof (pairs_net (g_dpp g) (g_rc g) (u_dpp _ _ _ Sg)) as EPP.
  transitivity (Hartree / Bohr * ((0 + 0) + (0 + 0))); [|ring]. rewrite <- EB at 1. rewrite <- EG at 1. rewrite <- ER at 1. rewrite <- EPP.
  rewrite <- !rsum_plus, <- rsum_scal. apply rsum_ext. intros I HI. rewrite !Efr, !Efp. fold (bs 0%nat I) (bs 1%nat I) (bs 2%nat I) (gf 0%nat I) (gf 1%nat I) (gf 2%nat I).
  set (F1 := force _ _ _ _ _ _). set (F2 := force _ _ _ _ _ _). unfold vel. cbn [rsum comp]. set (x := rigid_velocity w om (g_r g I)). unfold vdot. cbn [vx vy vz]. ring.
Qed.
End Main.
