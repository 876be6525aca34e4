From Coq Require Import Reals ZArith String List Bool Arith Lia Lra.
From Verif Require Import Vec GeomModel GeomSpec GeomProofs CoulModel MixModel OccModel PairModel PairSpec SkModel SkSpec Cpx RhoModel RhoSpec EigModel EigSpec InvModel InvSpec InvLin InvProofs InvProofs2 InvProofs3 InvProofs4 InvProofs8 InvProofs11 InvProofs12 InvProofs13 GamModel GamSpec GndSpec GndProofs4 GndProofs5.
Import ListNotations.
Open Scope R_scope.

(** the last step in the potential of the same charges *)
Lemma same_step X z z' w0 w0' evmin evmin' MAXE brentq tol_norm tol_mull tol_im Hartree Bohr q q' r r' :
  well_formed X -> proper X -> reliable z w0 X -> reliable z' w0' X -> 0 <= tol_norm -> (forall I, (I < s_N X)%nat -> q' I = q I) ->
  computed_from z evmin w0 MAXE brentq tol_norm tol_mull tol_im Hartree Bohr X q r ->
  computed_from z' evmin' w0' MAXE brentq tol_norm tol_mull tol_im Hartree Bohr X q' r' ->
  equal_result X r r'.
Proof.
  intros W PX RX RY Ht C (p & P & F) (p' & P' & F').
  destruct (pass_h1 (fun i => i) same_orbitals same_axes X X (self_equivalent X W) PX z z' w0 w0' evmin evmin' RX RY tol_norm Ht q q' C) as (p1 & p2 & E1 & E2 & A).
  rewrite P in E1. rewrite P' in E2. injection E1 as <-. injection E2 as <-.
  pose proof (finish_alike (fun i => i) same_orbitals same_axes X X (self_equivalent X W) MAXE brentq tol_mull tol_im Hartree Bohr true p p' A) as B. rewrite F, F' in B.
  constructor; try apply B.
  - intros k i l Hk Hi Hl. rewrite (a_rho _ _ _ _ _ _ B k i l Hk Hi Hl). apply same_transported; assumption.
  - intros k i l Hk Hi Hl. rewrite (a_rhoe _ _ _ _ _ _ B k i l Hk Hi Hl). apply same_transported; assumption.
  - intros c I Hc HI. rewrite (a_force _ _ _ _ _ _ B c I Hc HI). apply (same_axes_sum c (fun d => r_force r d I) Hc).
Qed.
Lemma unique_result (erfc : R -> R) (Bohr Hartree : R) (gaussian : bool) (gamma_cut : option R) (goal width sepsilon : R) (D : database) (g : structure) (inv : nat -> nat) :
  sound D g inv -> 0 < width -> (forall k, (k < g_nk g)%nat -> 0 <= g_wk g k) -> forall (X : system) (K : nat -> nat -> R),
  assemble erfc Bohr Hartree gaussian gamma_cut goal width sepsilon true D g = Some X -> (forall I, (I < g_N g)%nat -> g_ext g I = 0) -> interacts_by X K ->
  forall (z z' : InvSpec.lapack) (evmin evmin' : (nat -> nat -> cplx) -> R) (w0 w0' : nat -> nat -> R) (MAXE : R) (brentq : (R -> R) -> R -> R -> R -> option R) (tol_norm tol_mull tol_im : R),
  0 <= tol_norm -> reliable z w0 X -> reliable z' w0' X -> forall (q q' : vec) (r r' : result),
  computed_from z evmin w0 MAXE brentq tol_norm tol_mull tol_im Hartree Bohr X q r ->
  computed_from z' evmin' w0' MAXE brentq tol_norm tol_mull tol_im Hartree Bohr X q' r' ->
  filling (s_norb X) (s_nk X) (s_wk X) (r_f r') = filling (s_norb X) (s_nk X) (s_wk X) (r_f r) ->
  (forall I, (I < s_N X)%nat -> r_dq r I = q I) -> (forall I, (I < s_N X)%nat -> r_dq r' I = q' I) ->
  (forall k a, (k < s_nk X)%nat -> (a < s_norb X)%nat -> r_f r k a <> 0 /\ r_f r' k a <> 0) -> costs_strictly (s_N X) K ->
  equal_result X r r'.
Proof.
  intros SD Hw Hwk X K EX Hext IK z z' ev ev' w0 w0' MAXE bq tn tm ti Ht RX RY q q' r r' CF CF' EF Hq Hq' NZ Cs.
  destruct (unique_charges erfc Bohr Hartree gaussian gamma_cut goal width sepsilon D g inv SD Hw Hwk X K EX Hext IK z z' ev ev' w0 w0' MAXE MAXE bq bq tn tm ti tn tm ti Ht Ht RX RY q q' r r' CF CF' EF Hq Hq' NZ Cs) as [_ E].
  apply (same_step X z z' w0 w0' ev ev' MAXE bq tn tm ti Hartree Bohr q q' r r' (assembled_well _ _ _ _ _ _ _ _ _ _ _ _ EX) (assembled_proper _ _ _ _ _ _ _ _ _ _ _ _ _ SD EX) RX RY Ht); try assumption.
  intros I HI. rewrite <- (Hq I HI), <- (Hq' I HI). apply E. exact HI.
Qed.
