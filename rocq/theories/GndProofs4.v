From Coq Require Import Reals ZArith String List Bool Arith Permutation Lia Lra.
From Verif Require Import Vec GeomModel GeomSpec GeomProofs UtilModel CoulModel MixModel MixProofs2 OccModel PairModel PairSpec SkModel SkSpec Cpx RhoModel RhoSpec RhoProofs RhoProofs2 RhoProofs3 EigModel EigSpec InvModel InvSpec InvLin InvProofs2 InvProofs8 InvProofs11 InvProofs13 GamModel GamSpec GamProofs GamProofs2 FrcSpec FrcProofs FrcProofs2 BndProofs2 BndProofs4 FoldProofs9 FoldProofs11 NetSpec NetProofs6 GndSpec GndProofs GndProofs2 GndProofs3.
Import ListNotations.
Open Scope R_scope.

(** ** the potential of assembled systems *)
Lemma G_sym cs tr0 rot ci N cutoff Bohr U term r i j : closed_images cs tr0 rot ci -> (forall i j d, (i < N)%nat -> (j < N)%nat -> term i j d = term j i d) -> (i < N)%nat -> (j < N)%nat ->
  gamma_G Bohr U term (flat_map (cell_neighbours N r tr0 rot cutoff) cs) i j = gamma_G Bohr U term (flat_map (cell_neighbours N r tr0 rot cutoff) cs) j i.
Proof.
  intros Hc Ht Hi Hj. rewrite !G_value by assumption. f_equal.
  - destruct (Nat.eqb_spec i j) as [->|]; [rewrite Nat.eqb_refl; reflexivity|]. rewrite (proj2 (Nat.eqb_neq j i)) by lia. reflexivity.
  - rewrite (lsum_inv cs tr0 rot ci Hc). apply lsum_ext. intros c _. rewrite (mask_back cs tr0 rot ci Hc), (dist_back cs tr0 rot ci Hc). rewrite (Ht i j) by assumption. reflexivity.
Qed.
Lemma interaction_symmetric erfc Bohr Hartree gaussian gamma_cut goal width sepsilon D g X : closed_cells g ->
  assemble erfc Bohr Hartree gaussian gamma_cut goal width sepsilon true D g = Some X -> exists K, interacts_by X K.
Proof.
  intros CC. unfold assemble. destruct (too_close _ _ _); [discriminate|]. destruct (g_gamma erfc Bohr gaussian gamma_cut goal D g) as [G dG| | |] eqn:EG; try discriminate.
  destruct (get_neighbours _ _ _ _ _ _) as [l|] eqn:EN; [|discriminate]. intros E. injection E as <-.
  exists (fun I J => G I J + direct_gamma erfc gamma_cut l I J * Bohr). split; cbn [s_N s_G s_phi].
  - intros q I HI. unfold epsilon. rewrite (direct_phi_gamma erfc gamma_cut _ _ _ _ _ l q I EN). rewrite <- rsum_scal_r, <- rsum_plus. apply rsum_ext. intros; ring.
  - destruct (neighbours_of _ _ _ _ _ _ _ EN) as (cs & Es & El). destruct (CC _ _ Es) as (tr0 & rot & ci & Hag & Hci).
    assert (EL : flat_map (cell_neighbours (g_N g) (g_r g) (g_tr0 g) (g_rot g) gamma_cut) cs = flat_map (cell_neighbours (g_N g) (g_r g) tr0 rot gamma_cut) cs).
    { rewrite !flat_map_concat_map. f_equal. apply map_ext_in. intros c Hc. destruct (Hag c Hc) as [A1 A2]. unfold cell_neighbours, mask, drv, image. rewrite A1, A2. reflexivity. }
    assert (EGG : G = gamma_G Bohr (fun I => d_U D (g_kind g I)) (terms erfc gaussian D g) (flat_map (cell_neighbours (g_N g) (g_r g) tr0 rot gamma_cut) cs)).
    { pose proof EG as EG'. rewrite (g_gamma_at _ _ _ _ _ _ _ cs Es) in EG'. unfold nbs in EG'. rewrite EL in EG'. destruct (if gaussian then _ else _); [discriminate|]. destruct (gaussian && _)%bool; [discriminate|]. injection EG' as E1 _. symmetry. exact E1. }
    intros I J HI HJ. rewrite El, !gamma_is, EL, EGG.
    rewrite (G_sym cs tr0 rot ci (g_N g) gamma_cut Bohr _ _ (g_r g) I J Hci (fun i j d Hi Hj => terms_sym erfc Bohr gaussian gamma_cut goal D g cs G dG i j d Es EG Hi Hj) HI HJ).
    rewrite (G_sym cs tr0 rot ci (g_N g) gamma_cut 1 _ (dterm erfc gamma_cut) (g_r g) I J Hci (fun i j d _ _ => eq_refl) HI HJ). reflexivity.
Qed.
Lemma assembled_band erfc Bohr Hartree gaussian gamma_cut goal width sepsilon scc D g X : assemble erfc Bohr Hartree gaussian gamma_cut goal width sepsilon scc D g = Some X ->
  s_width X = width /\ s_wk X = g_wk g /\ s_nk X = g_nk g /\ s_ext X = g_ext g /\ s_N X = g_N g /\ layout (s_norb X) (s_N X) (s_o1 X) (s_no X).
Proof.
  unfold assemble. destruct (too_close _ _ _); [discriminate|]. destruct scc.
  - destruct (g_gamma _ _ _ _ _ _ _); try discriminate. destruct (get_neighbours _ _ _ _ _ _); try discriminate. intros E. injection E as <-. cbn. repeat split; apply orbital_layout.
  - intros E. injection E as <-. cbn. repeat split; apply orbital_layout.
Qed.
Lemma loop_mixer X z evmin w0 tol_norm MAXE brentq tol_mull m todo : forall i ms u p it n,
  scc_loop (fun dq => pass z evmin w0 tol_norm X (Some (h1_of X dq))) (charges MAXE brentq tol_mull X) m todo i ms u = (Returned p it, n) ->
  exists ms' dq o, pass z evmin w0 tol_norm X (Some (h1_of X dq)) = Some p /\ charges MAXE brentq tol_mull X p = Some o /\ fst (snd (m_call m ms' dq o)) = true.
Proof.
  induction todo as [|todo IH]; intros i ms u p it n; [discriminate|]. cbn [scc_loop]. destruct (pass z evmin w0 tol_norm X (Some (h1_of X u))) as [q|] eqn:EP; [|discriminate]. destruct (charges _ _ _ _ q) as [o|] eqn:EC; [|discriminate].
  destruct (m_call m ms u o) as [ms1 [d1 q1]] eqn:EM. destruct d1.
  - intros E. exists ms, u, o. replace p with q by congruence. split; [exact EP|]. split; [exact EC|]. rewrite EM. reflexivity.
  - destruct todo as [|todo]; [discriminate|]. destruct (scc_loop _ _ m (S todo) (S i) ms1 q1) as [r c] eqn:EL. intros E. apply (IH (S i) ms1 q1 p it c). rewrite EL. congruence.
Qed.
Lemma finish_charges MAXE brentq tol_mull tol_im Hartree Bohr scc X p r : finish MAXE brentq tol_mull tol_im Hartree Bohr scc X p = Some r -> charges MAXE brentq tol_mull X p = Some (r_dq r).
Proof.
  destruct p as [[h e] wf]. unfold finish. destruct (occupations MAXE brentq X (h, e, wf)) as [f|] eqn:EO; [|discriminate].
  destruct (charges MAXE brentq tol_mull X (h, e, wf)) as [dq|] eqn:EC; [|discriminate]. destruct (negb _); [discriminate|].
  destruct (band_structure_energy _ _ _ _ _ _) as [ebs|]; [|discriminate]. destruct (s_erep X); [|discriminate]. intros E. injection E as <-. reflexivity.
Qed.
Lemma calculate_scc z evmin w0 MAXE brentq m tol_norm tol_mull tol_im Hartree Bohr maxiter X s u r it n :
  calculate z evmin w0 MAXE brentq m tol_norm tol_mull tol_im Hartree Bohr true maxiter X s u = Solved r it n ->
  exists ms q, computed_from z evmin w0 MAXE brentq tol_norm tol_mull tol_im Hartree Bohr X q r /\ fst (snd (m_call m ms q (r_dq r))) = true.
Proof.
  unfold calculate. destruct (get_states _ _ _ m true maxiter s u) as [[p it0| | |] cnt] eqn:GS; try discriminate.
  destruct (finish MAXE brentq tol_mull tol_im Hartree Bohr true X p) as [r'|] eqn:EF; [|discriminate]. intros E. injection E as -> _ _.
  unfold get_states in GS. apply loop_mixer in GS. destruct GS as (ms & q & o & EP & EC & EM). exists ms, q. split; [exists p; split; assumption|].
  rewrite (finish_charges _ _ _ _ _ _ _ _ _ _ EF) in EC. injection EC as ->. exact EM.
Qed.
Lemma rsum_abs n f : Rabs (rsum n f) <= rsum n (fun i => Rabs (f i)).
Proof. induction n as [|n IH]; cbn [rsum]; [rewrite Rabs_R0; lra|]. eapply Rle_trans; [apply Rabs_triang|]. lra. Qed.
Lemma mismatch_bound N K q q1 q2 eps : (forall I, (I < N)%nat -> Rabs (q1 I - q I) <= eps) ->
  mismatch N K q q1 q2 <= eps * rsum N (fun I => Rabs (q2 I - q1 I) * rsum N (fun J => Rabs (K I J))).
Proof.
  intros H. unfold mismatch. rewrite <- rsum_scal. apply rsum_le. intros I HI.
  eapply Rle_trans; [apply Rle_abs|]. rewrite Rabs_mult.
  rewrite <- Rmult_assoc, (Rmult_comm eps), Rmult_assoc. apply Rmult_le_compat_l; [apply Rabs_pos|]. rewrite <- rsum_scal.
  eapply Rle_trans; [apply rsum_abs|]. apply rsum_le. intros J HJ. rewrite Rabs_mult, Rmult_comm. apply Rmult_le_compat_r; [apply Rabs_pos|]. rewrite Rabs_minus_sym. apply H. exact HJ.
Qed.
Lemma mismatch_zero N K q q1 q2 : (forall I, (I < N)%nat -> q I = q1 I) -> mismatch N K q q1 q2 = 0.
Proof. intros H. unfold mismatch. apply rsum_eq0. intros I _. rewrite rsum_eq0; [ring|]. intros J HJ. rewrite (H J HJ). ring. Qed.
