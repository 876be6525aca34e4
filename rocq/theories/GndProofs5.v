From Coq Require Import Reals ZArith String List Bool Arith Permutation Lia Lra.
From Verif Require Import Vec GeomModel GeomSpec GeomProofs UtilModel CoulModel MixModel MixProofs MixProofs2 OccModel PairModel PairSpec SkModel SkSpec Cpx RhoModel RhoSpec RhoProofs RhoProofs2 RhoProofs3 EigModel EigSpec InvModel InvSpec InvLin InvProofs2 InvProofs8 InvProofs11 InvProofs13 GamModel GamSpec FrcSpec FrcProofs FrcProofs2 BndProofs2 BndProofs4 NetSpec GndSpec GndProofs GndProofs2 GndProofs3 GndProofs4.
Import ListNotations.
Open Scope R_scope.

Lemma anderson_accepts sv p n : (0 < n)%nat -> accepts_within (anderson_mixer sv p n) n (convergence p).
Proof. intros Hn ms q out E I HI. left. apply (proj1 (anderson_done sv p n ms q out Hn)); [exact E|exact HI]. Qed.
Lemma pulay_accepts iv p n : accepts_within (pulay_mixer iv p n) n (convergence p).
Proof. intros ms q out E I HI. left. apply (pulay_done iv p n ms q out); [exact E|exact HI]. Qed.
Lemma hh_bounds y : 0 <= y <= 1 -> - ln 2 <= hh y <= 0.
Proof.
  intros Hy. split.
  - pose proof (cross y (/ 2) Hy ltac:(lra)) as C. replace (1 - / 2) with (/ 2) in C by lra. rewrite ln_Rinv in C by lra. lra.
  - unfold hh. assert (L : forall t, 0 <= t <= 1 -> t * ln t <= 0).
    { intros t Ht. destruct (Req_EM_T t 0) as [->|]; [lra|]. assert (ln t <= 0). { pose proof (ln_below t ltac:(lra)). lra. } nra. }
    pose proof (L y Hy). pose proof (L (1 - y) ltac:(lra)). lra.
Qed.
Lemma entropy_bounds X f : (forall k, (k < s_nk X)%nat -> 0 <= s_wk X k) -> (forall k a, (k < s_nk X)%nat -> (a < s_norb X)%nat -> 0 <= f k a <= 2) ->
  0 <= fermi_entropy (s_norb X) (s_nk X) (s_wk X) f <= 2 * ln 2 * INR (s_norb X) * rsum (s_nk X) (s_wk X).
Proof.
  intros Hw Hf. rewrite entropy_hh. assert (A : rsum (s_nk X) (fun k => s_wk X k * rsum (s_norb X) (fun a => hh (f k a / 2))) <= rsum (s_nk X) (fun _ => 0)).
  { apply rsum_le. intros k Hk. assert (rsum (s_norb X) (fun a => hh (f k a / 2)) <= rsum (s_norb X) (fun _ => 0)). { apply rsum_le. intros a Ha. apply hh_bounds. pose proof (Hf k a Hk Ha). lra. }
    rewrite rsum_zero in H. pose proof (Hw k Hk). nra. }
  rewrite rsum_zero in A.
  assert (B : rsum (s_nk X) (fun k => s_wk X k * (INR (s_norb X) * - ln 2)) <= rsum (s_nk X) (fun k => s_wk X k * rsum (s_norb X) (fun a => hh (f k a / 2)))).
  { apply rsum_le. intros k Hk. apply Rmult_le_compat_l; [apply Hw; exact Hk|]. assert (C : rsum (s_norb X) (fun _ => - ln 2) <= rsum (s_norb X) (fun a => hh (f k a / 2))). { apply rsum_le. intros a Ha. apply hh_bounds. pose proof (Hf k a Hk Ha). lra. }
    rewrite rsum_const in C. lra. }
  rewrite rsum_scal_r in B. lra.
Qed.

Section Final.
Context (erfc : R -> R) (Bohr Hartree : R) (gaussian : bool) (gamma_cut : option R) (goal width sepsilon : R) (D : database) (g : structure) (inv : nat -> nat).
Context (Sg : sound D g inv) (HT : 0 < width) (Hw : forall k, (k < g_nk g)%nat -> 0 <= g_wk g k).
Context (z : lapack) (evmin : (nat -> nat -> cplx) -> R) (w0 : nat -> nat -> R) (MAXE : R) (brentq : (R -> R) -> R -> R -> R -> option R).
Context (tol_norm tol_mull tol_im : R) (maxiter : nat) (Ht : 0 <= tol_norm).
Section Band.
Context (m : mixer) (X : system) (s : mst m) (u : vec) (r : result) (it : option nat) (n : nat).
Context (EX : assemble erfc Bohr Hartree gaussian gamma_cut goal width sepsilon false D g = Some X) (RX : reliable z w0 X).
Context (EC : calculate z evmin w0 MAXE brentq m tol_norm tol_mull tol_im Hartree Bohr false maxiter X s u = Solved r it n).
Lemma wk_pos scc Y : assemble erfc Bohr Hartree gaussian gamma_cut goal width sepsilon scc D g = Some Y -> (forall k, (k < s_nk Y)%nat -> 0 <= s_wk Y k) /\ 0 < s_width Y.
Proof. intros E. destruct (assembled_band _ _ _ _ _ _ _ _ _ _ _ _ E) as (A & B & C & _). rewrite A, B, C. split; assumption. Qed.
Lemma ground_band :
  (exists W, electrons_in X W (r_f r) /\ electronic_free_energy X r = free_of X W (r_f r) 0) /\
  exists mu, forall V f, electrons_in X V f ->
  electronic_free_energy X r <= free_of X V f 0 + mu * (filling (s_norb X) (s_nk X) (s_wk X) (r_f r) - filling (s_norb X) (s_nk X) (s_wk X) f) + emptied MAXE X (r_f r).
Proof.
  pose proof (assembled_proper _ _ _ _ _ _ _ _ _ _ _ _ _ Sg EX) as PX. destruct (wk_pos false X EX) as [A B].
  split; [exact (band_attained z evmin w0 MAXE brentq m tol_norm tol_mull tol_im Hartree Bohr maxiter X s u r it n Ht B PX RX A EC)|exact (band_min z evmin w0 MAXE brentq m tol_norm tol_mull tol_im Hartree Bohr maxiter X s u r it n Ht B PX RX A EC)].
Qed.
Lemma ground_energy V f : electrons_in X V f -> filling (s_norb X) (s_nk X) (s_wk X) f = filling (s_norb X) (s_nk X) (s_wk X) (r_f r) ->
  r_ebs r <= band_of X V f + width * (2 * ln 2 * INR (s_norb X) * rsum (s_nk X) (s_wk X)) + emptied MAXE X (r_f r).
Proof.
  intros EV EF. destruct ground_band as ((W & (_ & BW) & _) & mu & M). specialize (M V f EV). rewrite EF in M. destruct (wk_pos false X EX) as [A B].
  pose proof (entropy_bounds X (r_f r) A BW) as E1. pose proof (entropy_bounds X f A (proj2 EV)) as E2. destruct (assembled_band _ _ _ _ _ _ _ _ _ _ _ _ EX) as (Ew & _).
  apply calculate_pass in EC. destruct EC as (p & _ & EF'). destruct (finish_parts _ _ _ _ _ _ _ _ _ _ EF') as (_ & _ & _ & ECo). unfold coulomb_energy in ECo.
  unfold electronic_free_energy, free_of in M. rewrite Ew, ECo in M. nra.
Qed.
End Band.
Section Scc.
Context (X : system) (K : nat -> nat -> R).
Context (EX : assemble erfc Bohr Hartree gaussian gamma_cut goal width sepsilon true D g = Some X) (RX : reliable z w0 X).
Context (NE : forall I, (I < g_N g)%nat -> g_ext g I = 0) (IK : interacts_by X K).
Lemma ground_scc q r : computed_from z evmin w0 MAXE brentq tol_norm tol_mull tol_im Hartree Bohr X q r ->
  (exists W, electrons_in X W (r_f r) /\ r_dq r = charges_of X W (r_f r) /\ electronic_free_energy X r = free_of X W (r_f r) (coulomb_of (s_N X) K (r_dq r))) /\
  exists mu, forall V f, electrons_in X V f ->
  electronic_free_energy X r + coulomb_of (s_N X) K (fun I => charges_of X V f I - r_dq r I)
  <= free_of X V f (coulomb_of (s_N X) K (charges_of X V f)) + mu * (filling (s_norb X) (s_nk X) (s_wk X) (r_f r) - filling (s_norb X) (s_nk X) (s_wk X) f)
     + mismatch (s_N X) K q (r_dq r) (charges_of X V f) + emptied MAXE X (r_f r).
Proof.
  intros CF. pose proof (assembled_proper _ _ _ _ _ _ _ _ _ _ _ _ _ Sg EX) as PX. destruct (wk_pos true X EX) as [A B]. destruct (assembled_band _ _ _ _ _ _ _ _ _ _ _ _ EX) as (_ & _ & _ & Ee & EN & L).
  apply (scc_min z evmin w0 MAXE brentq tol_norm tol_mull tol_im Hartree Bohr X K q r Ht B PX L RX A); [|exact IK|exact CF]. intros I HI. rewrite Ee. apply NE. rewrite <- EN. exact HI.
Qed.
Lemma sum_difference q r V f : computed_from z evmin w0 MAXE brentq tol_norm tol_mull tol_im Hartree Bohr X q r -> electrons_in X V f ->
  filling (s_norb X) (s_nk X) (s_wk X) f = filling (s_norb X) (s_nk X) (s_wk X) (r_f r) -> rsum (s_N X) (fun I => charges_of X V f I - r_dq r I) = 0.
Proof.
  intros CF EV EF. destruct (ground_scc q r CF) as ((W & EW & Edq & _) & _). destruct (assembled_band _ _ _ _ _ _ _ _ _ _ _ _ EX) as (_ & _ & _ & _ & _ & L).
  rewrite rsum_minus, Edq. rewrite (charge_sum X V f L (proj1 EV)), (charge_sum X W (r_f r) L (proj1 EW)), EF. ring.
Qed.
Lemma ground_converged (m : mixer) (s : mst m) u r it n eps V f : accepts_within m (s_N X) eps -> costs (s_N X) K ->
  calculate z evmin w0 MAXE brentq m tol_norm tol_mull tol_im Hartree Bohr true maxiter X s u = Solved r it n ->
  electrons_in X V f -> filling (s_norb X) (s_nk X) (s_wk X) f = filling (s_norb X) (s_nk X) (s_wk X) (r_f r) ->
  electronic_free_energy X r <= free_of X V f (coulomb_of (s_N X) K (charges_of X V f)) + eps * interaction_size (s_N X) K (fun I => charges_of X V f I - r_dq r I) + emptied MAXE X (r_f r).
Proof.
  intros Am Cs EC EV EF. apply calculate_scc in EC. destruct EC as (ms & q & CF & Hm). destruct (ground_scc q r CF) as (_ & mu & M). specialize (M V f EV). rewrite EF in M.
  pose proof (Cs _ (sum_difference q r V f CF EV EF)) as P. pose proof (mismatch_bound (s_N X) K q (r_dq r) (charges_of X V f) eps (Am ms q (r_dq r) Hm)) as B. unfold interaction_size. lra.
Qed.
End Scc.
End Final.

(** ** two calculations of the same structure *)
Section Two.
Context (erfc : R -> R) (Bohr Hartree : R) (gaussian : bool) (gamma_cut : option R) (goal width sepsilon : R) (D : database) (g : structure) (inv : nat -> nat).
Context (Sg : sound D g inv) (HT : 0 < width) (Hw : forall k, (k < g_nk g)%nat -> 0 <= g_wk g k).
Context (X : system) (K : nat -> nat -> R).
Context (EX : assemble erfc Bohr Hartree gaussian gamma_cut goal width sepsilon true D g = Some X).
Context (NE : forall I, (I < g_N g)%nat -> g_ext g I = 0) (IK : interacts_by X K).
Context (z z' : lapack) (evmin evmin' : (nat -> nat -> cplx) -> R) (w0 w0' : nat -> nat -> R) (MAXE MAXE' : R) (brentq brentq' : (R -> R) -> R -> R -> R -> option R).
Context (tol_norm tol_mull tol_im tol_norm' tol_mull' tol_im' : R) (maxiter maxiter' : nat) (Ht : 0 <= tol_norm) (Ht' : 0 <= tol_norm') (RX : reliable z w0 X) (RX' : reliable z' w0' X).
Lemma size_sym d d' : (forall I, d' I = - d I) -> interaction_size (s_N X) K d' = interaction_size (s_N X) K d.
Proof. intros H. unfold interaction_size. apply rsum_ext. intros I _. rewrite H, Rabs_Ropp. reflexivity. Qed.
Lemma coulomb_sym d d' : (forall I, d' I = - d I) -> coulomb_of (s_N X) K d' = coulomb_of (s_N X) K d.
Proof. intros H. unfold coulomb_of. f_equal. apply rsum_ext. intros I _. apply rsum_ext. intros J _. rewrite !H. ring. Qed.
Lemma two_results q q' r r' eps eps' :
  computed_from z evmin w0 MAXE brentq tol_norm tol_mull tol_im Hartree Bohr X q r ->
  computed_from z' evmin' w0' MAXE' brentq' tol_norm' tol_mull' tol_im' Hartree Bohr X q' r' ->
  filling (s_norb X) (s_nk X) (s_wk X) (r_f r') = filling (s_norb X) (s_nk X) (s_wk X) (r_f r) ->
  (forall I, (I < s_N X)%nat -> Rabs (r_dq r I - q I) <= eps) -> (forall I, (I < s_N X)%nat -> Rabs (r_dq r' I - q' I) <= eps') ->
  let d := fun I => r_dq r' I - r_dq r I in
  rsum (s_N X) d = 0 /\
  electronic_free_energy X r + coulomb_of (s_N X) K d <= electronic_free_energy X r' + eps * interaction_size (s_N X) K d + emptied MAXE X (r_f r) /\
  electronic_free_energy X r' + coulomb_of (s_N X) K d <= electronic_free_energy X r + eps' * interaction_size (s_N X) K d + emptied MAXE' X (r_f r').
Proof.
  intros CF CF' EF Q Q' d.
  destruct (ground_scc erfc Bohr Hartree gaussian gamma_cut goal width sepsilon D g inv Sg HT Hw z evmin w0 MAXE brentq tol_norm tol_mull tol_im Ht X K EX RX NE IK q r CF) as ((W & EW & Eq & Ef) & mu & M).
  destruct (ground_scc erfc Bohr Hartree gaussian gamma_cut goal width sepsilon D g inv Sg HT Hw z' evmin' w0' MAXE' brentq' tol_norm' tol_mull' tol_im' Ht' X K EX RX' NE IK q' r' CF') as ((W' & EW' & Eq' & Ef') & mu' & M').
  specialize (M W' (r_f r') EW'). specialize (M' W (r_f r) EW). rewrite <- Eq', <- Ef', EF in M. rewrite <- Eq, <- Ef, EF in M'.
  pose proof (mismatch_bound (s_N X) K q (r_dq r) (r_dq r') eps Q) as B. pose proof (mismatch_bound (s_N X) K q' (r_dq r') (r_dq r) eps' Q') as B'.
  change (rsum (s_N X) (fun I => Rabs (r_dq r' I - r_dq r I) * rsum (s_N X) (fun J => Rabs (K I J)))) with (interaction_size (s_N X) K d) in B. change (rsum (s_N X) (fun I => Rabs (r_dq r I - r_dq r' I) * rsum (s_N X) (fun J => Rabs (K I J)))) with (interaction_size (s_N X) K (fun I => r_dq r I - r_dq r' I)) in B'.
  rewrite (size_sym d (fun I => r_dq r I - r_dq r' I)) in B' by (intros; unfold d; ring). rewrite (coulomb_sym d (fun I => r_dq r I - r_dq r' I)) in M' by (intros; unfold d; ring).
  change (fun I => r_dq r' I - r_dq r I) with d in M. split; [|lra].
  pose proof (sum_difference erfc Bohr Hartree gaussian gamma_cut goal width sepsilon D g inv Sg HT Hw z evmin w0 MAXE brentq tol_norm tol_mull tol_im Ht X K EX RX NE IK q r W' (r_f r') CF EW' EF) as S0. rewrite <- Eq' in S0. exact S0.
Qed.
Lemma two_calculations (m m' : mixer) (s : mst m) (s' : mst m') u u' r r' it it' n n' eps eps' : costs (s_N X) K -> accepts_within m (s_N X) eps -> accepts_within m' (s_N X) eps' ->
  calculate z evmin w0 MAXE brentq m tol_norm tol_mull tol_im Hartree Bohr true maxiter X s u = Solved r it n ->
  calculate z' evmin' w0' MAXE' brentq' m' tol_norm' tol_mull' tol_im' Hartree Bohr true maxiter' X s' u' = Solved r' it' n' ->
  filling (s_norb X) (s_nk X) (s_wk X) (r_f r') = filling (s_norb X) (s_nk X) (s_wk X) (r_f r) ->
  let d := fun I => r_dq r' I - r_dq r I in
  2 * coulomb_of (s_N X) K d <= (eps + eps') * interaction_size (s_N X) K d + emptied MAXE X (r_f r) + emptied MAXE' X (r_f r') /\
  electronic_free_energy X r - electronic_free_energy X r' <= eps * interaction_size (s_N X) K d + emptied MAXE X (r_f r) /\
  electronic_free_energy X r' - electronic_free_energy X r <= eps' * interaction_size (s_N X) K d + emptied MAXE' X (r_f r').
Proof.
  intros Cs Am Am' EC EC' EF d. apply calculate_scc in EC, EC'. destruct EC as (ms & q & CF & Hm). destruct EC' as (ms' & q' & CF' & Hm').
  destruct (two_results q q' r r' eps eps' CF CF' EF (Am ms q (r_dq r) Hm) (Am' ms' q' (r_dq r') Hm')) as (Z & A & B). fold d in Z, A, B. pose proof (Cs d Z). lra.
Qed.
Lemma unique_charges q q' r r' :
  computed_from z evmin w0 MAXE brentq tol_norm tol_mull tol_im Hartree Bohr X q r ->
  computed_from z' evmin' w0' MAXE' brentq' tol_norm' tol_mull' tol_im' Hartree Bohr X q' r' ->
  filling (s_norb X) (s_nk X) (s_wk X) (r_f r') = filling (s_norb X) (s_nk X) (s_wk X) (r_f r) ->
  (forall I, (I < s_N X)%nat -> r_dq r I = q I) -> (forall I, (I < s_N X)%nat -> r_dq r' I = q' I) ->
  (forall k a, (k < s_nk X)%nat -> (a < s_norb X)%nat -> r_f r k a <> 0 /\ r_f r' k a <> 0) -> costs_strictly (s_N X) K ->
  electronic_free_energy X r' = electronic_free_energy X r /\ forall I, (I < s_N X)%nat -> r_dq r' I = r_dq r I.
Proof.
  intros CF CF' EF Q Q' NZ Cs.
  destruct (two_results q q' r r' 0 0 CF CF' EF) as (Z & A & B).
  { intros I HI. rewrite (Q I HI), Rminus_diag_eq, Rabs_R0 by reflexivity. lra. } { intros I HI. rewrite (Q' I HI), Rminus_diag_eq, Rabs_R0 by reflexivity. lra. }
  assert (E0 : forall ME f, (forall k a, (k < s_nk X)%nat -> (a < s_norb X)%nat -> f k a <> 0) -> emptied ME X f = 0).
  { intros ME f H. unfold emptied. apply rsum_eq0. intros k Hk. rewrite rsum_eq0; [ring|]. intros a Ha. destruct (Req_EM_T (f k a) 0) as [E|_]; [|reflexivity]. exfalso. exact (H k a Hk Ha E). }
  rewrite (E0 MAXE (r_f r) (fun k a Hk Ha => proj1 (NZ k a Hk Ha))), (E0 MAXE' (r_f r') (fun k a Hk Ha => proj2 (NZ k a Hk Ha))) in *.
  assert (E : forall I, (I < s_N X)%nat -> r_dq r' I - r_dq r I = 0) by (apply (Cs _ Z); lra).
  split; [|intros I HI; specialize (E I HI); lra].
  assert (Ec : coulomb_of (s_N X) K (fun I => r_dq r' I - r_dq r I) = 0). { unfold coulomb_of. rewrite rsum_eq0; [ring|]. intros I HI. apply rsum_eq0. intros J HJ. rewrite (E I HI). ring. }
  lra.
Qed.
End Two.
