From Coq Require Import Reals ZArith String List Bool Arith Lia Lra.
From Verif Require Import Vec GeomModel GeomSpec GeomProofs CoulModel MixModel OccModel PairModel PairSpec SkModel SkSpec Cpx RhoModel RhoSpec EigModel EigSpec InvModel InvSpec InvLin InvProofs14 GamModel GamSpec GamProofs3 FrcSpec FrcProofs8 FrcProofs10 FoldSpec NetSpec NetProofs7 NetProofs10 GndSpec GndProofs4 GndProofs5 GndProofs6 GndProofs10 GndProofs11 GndProofs12.
Import ListNotations.
Open Scope R_scope.

Lemma emptied_none MAXE X f : (forall k a, (k < s_nk X)%nat -> (a < s_norb X)%nat -> f k a <> 0) -> emptied MAXE X f = 0.
Proof.
  intros H. unfold emptied. rewrite (rsum_ext _ _ (fun _ => 0)); [apply rsum_zero|]. intros k Hk. rewrite (rsum_ext _ _ (fun _ => 0)), rsum_zero; [ring|]. intros a Ha. destruct (Req_EM_T (f k a) 0) as [E|_]; [|reflexivity]. exfalso. exact (H k a Hk Ha E).
Qed.
(** the charges and free energies of two converged calculations *)
Lemma close_calculations (erfc : R -> R) (Bohr Hartree : R) (gaussian : bool) (gamma_cut : option R) (goal width sepsilon : R) (D : database) (g : structure) (inv : nat -> nat) :
  sound D g inv -> 0 < width -> (forall k, (k < g_nk g)%nat -> 0 <= g_wk g k) -> forall (X : system) (K : nat -> nat -> R),
  assemble erfc Bohr Hartree gaussian gamma_cut goal width sepsilon true D g = Some X -> (forall I, (I < g_N g)%nat -> g_ext g I = 0) -> interacts_by X K ->
  forall (z z' : InvSpec.lapack) (evmin evmin' : (nat -> nat -> cplx) -> R) (w0 w0' : nat -> nat -> R) (MAXE MAXE' : R) (brentq brentq' : (R -> R) -> R -> R -> R -> option R)
    (tol_norm tol_mull tol_im tol_norm' tol_mull' tol_im' : R) (maxiter maxiter' : nat),
  0 <= tol_norm -> 0 <= tol_norm' -> reliable z w0 X -> reliable z' w0' X ->
  forall (m m' : mixer) (s : mst m) (s' : mst m') (u u' : vec) (r r' : result) (it it' : option nat) (n n' : nat) (eps eps' kappa L : R),
  0 < kappa -> costs_at_least (s_N X) K kappa -> (forall I, (I < s_N X)%nat -> rsum (s_N X) (fun J => Rabs (K I J)) <= L) ->
  0 <= eps -> 0 <= eps' -> accepts_within m (s_N X) eps -> accepts_within m' (s_N X) eps' ->
  calculate z evmin w0 MAXE brentq m tol_norm tol_mull tol_im Hartree Bohr true maxiter X s u = Solved r it n ->
  calculate z' evmin' w0' MAXE' brentq' m' tol_norm' tol_mull' tol_im' Hartree Bohr true maxiter' X s' u' = Solved r' it' n' ->
  filling (s_norb X) (s_nk X) (s_wk X) (r_f r') = filling (s_norb X) (s_nk X) (s_wk X) (r_f r) ->
  (forall k a, (k < s_nk X)%nat -> (a < s_norb X)%nat -> r_f r k a <> 0 /\ r_f r' k a <> 0) ->
  rsum (s_N X) (fun I => Rabs (r_dq r' I - r_dq r I)) <= INR (s_N X) * (eps + eps') * L / kappa /\
  Rabs (electronic_free_energy X r' - electronic_free_energy X r) <= Rmax eps eps' * L * (INR (s_N X) * (eps + eps') * L / kappa).
Proof.
  intros SD Hw Hwk X K EX Hext IK z z' ev ev' w0 w0' ME ME' bq bq' tn tm ti tn' tm' ti' mi mi' Ht Ht' RX RX' m m' s s' u u' r r' it it' n n' eps eps' kappa L Hk Cs HL He He' Am Am' EC EC' EF NZ.
  pose proof EC as EC0. pose proof EC' as EC0'. apply calculate_scc in EC0, EC0'. destruct EC0 as (ms & q & CF & Hm). destruct EC0' as (ms' & q' & CF' & Hm').
  destruct (two_results erfc Bohr Hartree gaussian gamma_cut goal width sepsilon D g inv SD Hw Hwk X K EX Hext IK z z' ev ev' w0 w0' ME ME' bq bq' tn tm ti tn' tm' ti' Ht Ht' RX RX' q q' r r' eps eps' CF CF' EF (Am ms q (r_dq r) Hm) (Am' ms' q' (r_dq r') Hm')) as (Z & A & B).
  rewrite (emptied_none ME X (r_f r) (fun k a Hk Ha => proj1 (NZ k a Hk Ha))) in A. rewrite (emptied_none ME' X (r_f r') (fun k a Hk Ha => proj2 (NZ k a Hk Ha))) in B.
  set (d := fun I => r_dq r' I - r_dq r I) in *. set (SZ := interaction_size (s_N X) K d) in *.
  assert (C0 : 0 <= coulomb_of (s_N X) K d). { specialize (Cs d Z). assert (0 <= kappa * rsum (s_N X) (fun I => d I * d I)) by (apply Rmult_le_pos; [lra|]; apply rsum_nonneg; intros; nra). lra. }
  assert (P : rsum (s_N X) (fun I => Rabs (d I)) <= INR (s_N X) * (eps + eps') * L / kappa) by (apply (close_charges (s_N X) K kappa L (eps + eps') d Hk); [lra|exact HL|exact Cs|exact Z|fold SZ; lra]).
  split; [exact P|]. set (Bd := INR (s_N X) * (eps + eps') * L / kappa) in *.
  assert (S1 : SZ <= L * rsum (s_N X) (fun I => Rabs (d I))). { unfold SZ, interaction_size. rewrite <- rsum_scal. apply rsum_le. intros I HI. rewrite (Rmult_comm L). apply Rmult_le_compat_l; [apply Rabs_pos|apply HL; exact HI]. }
  assert (S0 : 0 <= SZ). { unfold SZ, interaction_size. apply rsum_nonneg. intros I HI. apply Rmult_le_pos; [apply Rabs_pos|]. apply rsum_nonneg. intros; apply Rabs_pos. }
  assert (S2 : SZ <= L * Bd).
  { destruct (Rle_dec 0 L) as [H|H]; [eapply Rle_trans; [exact S1|apply Rmult_le_compat_l; assumption]|]. assert (EN : s_N X = 0%nat). { destruct (s_N X) as [|N] eqn:EN; [reflexivity|exfalso]. apply H. eapply Rle_trans; [|apply (HL 0%nat); lia]. apply rsum_nonneg. intros; apply Rabs_pos. }
    unfold SZ, interaction_size, Bd. rewrite EN. cbn. unfold Rdiv. rewrite !Rmult_0_l, Rmult_0_r. lra. }
  pose proof (Rmax_l eps eps') as M1. pose proof (Rmax_r eps eps') as M2.
  assert (T : forall e, 0 <= e -> e <= Rmax eps eps' -> e * SZ <= Rmax eps eps' * L * Bd). { intros e H0 H1. rewrite Rmult_assoc. apply Rmult_le_compat; lra. }
  pose proof (T eps He M1). pose proof (T eps' He' M2). apply Rabs_le. lra.
Qed.
(** molecules with Gaussian charges *)
Lemma molecule_ground_state (erfc : R -> R) (Bohr Hartree goal width sepsilon : R) (D : database) (g : structure) (inv : nat -> nat) :
  is_erfc erfc -> 0 < Bohr -> molecule g -> wide_enough D g -> sound D g inv -> 0 < width -> forall (X : system) (K : nat -> nat -> R),
  assemble erfc Bohr Hartree true None goal width sepsilon true D g = Some X -> (forall I, (I < g_N g)%nat -> g_ext g I = 0) -> interacts_by X K ->
  forall (z : InvSpec.lapack) (evmin : (nat -> nat -> cplx) -> R) (w0 : nat -> nat -> R) (MAXE : R) (brentq : (R -> R) -> R -> R -> R -> option R) (tol_norm tol_mull tol_im : R) (maxiter : nat),
  0 <= tol_norm -> reliable z w0 X ->
  forall (m : mixer) (s : mst m) (u : vec) (r : result) (it : option nat) (n : nat) (eps : R) (V : nat -> nat -> nat -> cplx) (f : nat -> nat -> R),
  accepts_within m (s_N X) eps ->
  calculate z evmin w0 MAXE brentq m tol_norm tol_mull tol_im Hartree Bohr true maxiter X s u = Solved r it n ->
  electrons_in X V f -> filling (s_norb X) (s_nk X) (s_wk X) f = filling (s_norb X) (s_nk X) (s_wk X) (r_f r) ->
  electronic_free_energy X r <= free_of X V f (energy_of_charges X (charges_of X V f)) + eps * interaction_size (s_N X) K (fun I => charges_of X V f I - r_dq r I) + emptied MAXE X (r_f r).
Proof.
  intros He HB M WE SD Hw X K EX Hext IK z ev w0 ME bq tn tm ti mi Ht RX m s u r it n eps V f Am EC EV EF. rewrite (interaction_energy X K _ IK).
  assert (Hwk : forall k, (k < g_nk g)%nat -> 0 <= g_wk g k). { intros k Hk. rewrite (b_nk _ M) in Hk. assert (k = 0%nat) as -> by lia. rewrite (b_wk _ M). lra. }
  exact (ground_converged erfc Bohr Hartree true None goal width sepsilon D g inv SD Hw Hwk z ev w0 ME bq tn tm ti mi Ht X K EX RX Hext IK m s u r it n eps V f Am (molecules_cost erfc Bohr Hartree goal width sepsilon D g X K He HB M WE EX IK) EC EV EF).
Qed.
(** the dimer of ex_ground *)
Lemma three_pi : 3 < PI.
Proof. pose proof PI2_3_2. lra. Qed.
Lemma ln2_below : ln 2 < 1.
Proof. rewrite <- (ln_exp 1). apply ln_increasing; [lra|]. pose proof (exp_ineq1 1). lra. Qed.
Example ex_positive d : molecule (gd d) /\ wide_enough D2 (gd d) /\
  forall I, (I < g_N (gd d))%nat -> / 10 + 2 / sqrt PI * gauss_const (d_FWHM D2 (g_kind (gd d) I)) (d_FWHM D2 (g_kind (gd d) I)) <= d_U D2 (g_kind (gd d) I).
Proof.
  pose proof three_pi as P. pose proof ln2_below as L. pose proof ln2_pos as L0.
  assert (B : sqrt (8 * ln 2 / PI) <= 9 / 5). { replace (9 / 5) with (sqrt ((9 / 5) ^ 2)) by (apply sqrt_pow2; lra). apply sqrt_le_1_alt. apply (Rmult_le_reg_r PI); [lra|]. unfold Rdiv. rewrite Rmult_assoc, Rinv_l by lra. lra. }
  assert (E : forall I, (I < 2)%nat -> d_U D2 (g_kind (gd d) I) = 1) by (intros I HI; reflexivity).
  split; [constructor; reflexivity|]. split.
  - intros I HI. rewrite (E I HI). split; [lra|]. unfold default_FWHM. cbn [d_FWHM D2]. lra.
  - intros I HI. rewrite (E I HI). cbn [d_FWHM D2]. assert (E2 : 2 / sqrt PI * gauss_const 2 2 = sqrt (8 * ln 2 / PI) / 2).
    { rewrite <- (gauss_onsite (sqrt (8 * ln 2 / PI) / 2)). 2: { apply Rdiv_lt_0_compat; [|lra]. apply sqrt_lt_R0. apply Rdiv_lt_0_compat; lra. } unfold default_FWHM. replace (sqrt (8 * ln 2 / PI) / (sqrt (8 * ln 2 / PI) / 2)) with 2; [reflexivity|]. assert (0 < sqrt (8 * ln 2 / PI)) by (apply sqrt_lt_R0; apply Rdiv_lt_0_compat; lra). field. lra. }
    rewrite E2. lra.
Qed.
