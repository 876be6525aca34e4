From Coq Require Import Reals ZArith String List Bool Arith.
From Verif Require Import InvModel InvSpec Vec GeomModel GeomSpec CoulModel MixModel OccModel PairModel PairSpec SkModel SkSpec Cpx RhoModel RhoSpec EigModel EigSpec GamModel GamSpec FoldSpec NetSpec GndSpec GndProofs4 GndProofs5 GndProofs6 GndProofs7 GndProofs8 GndProofs9 FoldSpec GndProofs12 GndProofs13 GndProofs14.
Import ListNotations.
Open Scope R_scope.

(** C185: without self-consistent charges.  Case: ex_ground with scc = false *)
Theorem C185_ground_state :
  forall (erfc : R -> R) (Bohr Hartree : R) (gaussian : bool) (gamma_cut : option R) (goal width sepsilon : R) (D : database) 
    (g : structure) (inv : nat -> nat),
  sound D g inv ->
  0 < width ->
  (forall k : nat, (k < g_nk g)%nat -> 0 <= g_wk g k) ->
  forall (z : InvSpec.lapack) (evmin : (nat -> nat -> cplx) -> R) (w0 : nat -> nat -> R) (MAXE : R)
    (brentq : (R -> R) -> R -> R -> R -> option R) (tol_norm tol_mull tol_im : R) (maxiter : nat),
  0 <= tol_norm ->
  forall (m : mixer) (X : system) (s : mst m) (u : vec) (r : result) (it : option nat) (n : nat),
  assemble erfc Bohr Hartree gaussian gamma_cut goal width sepsilon false D g = Some X ->
  reliable z w0 X ->
  calculate z evmin w0 MAXE brentq m tol_norm tol_mull tol_im Hartree Bohr false maxiter X s u = Solved r it n ->
  (exists W : nat -> nat -> nat -> cplx, electrons_in X W (r_f r) /\ electronic_free_energy X r = free_of X W (r_f r) 0) /\
  (exists mu : R,
     forall (V : nat -> nat -> nat -> cplx) (f : nat -> nat -> R),
     electrons_in X V f ->
     electronic_free_energy X r <=
     free_of X V f 0 + mu * (filling (s_norb X) (s_nk X) (s_wk X) (r_f r) - filling (s_norb X) (s_nk X) (s_wk X) f) + emptied MAXE X (r_f r)).
Proof. exact ground_band. Qed.
Theorem C185_energy :
  forall (erfc : R -> R) (Bohr Hartree : R) (gaussian : bool) (gamma_cut : option R) (goal width sepsilon : R) (D : database) 
    (g : structure) (inv : nat -> nat),
  sound D g inv ->
  0 < width ->
  (forall k : nat, (k < g_nk g)%nat -> 0 <= g_wk g k) ->
  forall (z : InvSpec.lapack) (evmin : (nat -> nat -> cplx) -> R) (w0 : nat -> nat -> R) (MAXE : R)
    (brentq : (R -> R) -> R -> R -> R -> option R) (tol_norm tol_mull tol_im : R) (maxiter : nat),
  0 <= tol_norm ->
  forall (m : mixer) (X : system) (s : mst m) (u : vec) (r : result) (it : option nat) (n : nat),
  assemble erfc Bohr Hartree gaussian gamma_cut goal width sepsilon false D g = Some X ->
  reliable z w0 X ->
  calculate z evmin w0 MAXE brentq m tol_norm tol_mull tol_im Hartree Bohr false maxiter X s u = Solved r it n ->
  forall (V : nat -> nat -> nat -> cplx) (f : nat -> nat -> R),
  electrons_in X V f ->
  filling (s_norb X) (s_nk X) (s_wk X) f = filling (s_norb X) (s_nk X) (s_wk X) (r_f r) ->
  r_ebs r <= band_of X V f + width * (2 * ln 2 * INR (s_norb X) * rsum (s_nk X) (s_wk X)) + emptied MAXE X (r_f r).
Proof. exact ground_energy. Qed.
(** C186: with self-consistent charges.  Case: ex_ground with scc = true, anderson_accepts, pulay_accepts *)
Theorem C186_interaction :
  forall (erfc : R -> R) (Bohr Hartree : R) (gaussian : bool) (gamma_cut : option R) (goal width sepsilon : R) (D : database) 
    (g : structure) (X : system),
  closed_cells g ->
  assemble erfc Bohr Hartree gaussian gamma_cut goal width sepsilon true D g = Some X -> exists K : nat -> nat -> R, interacts_by X K.
Proof. exact interaction_symmetric. Qed.
Theorem C186_last_step :
  forall (z : nat -> (nat -> cplx) -> (nat -> cplx) -> (nat -> R) -> Z * (nat -> cplx) * (nat -> R)) (evmin : (nat -> nat -> cplx) -> R)
    (w0 : nat -> nat -> R) (MAXE : R) (brentq : (R -> R) -> R -> R -> R -> option R) (m : mixer) (tol_norm tol_mull tol_im Hartree Bohr : R)
    (maxiter : nat) (X : system) (s : mst m) (u : vec) (r : result) (it : option nat) (n : nat),
  calculate z evmin w0 MAXE brentq m tol_norm tol_mull tol_im Hartree Bohr true maxiter X s u = Solved r it n ->
  exists (ms : mst m) (q : vec),
    computed_from z evmin w0 MAXE brentq tol_norm tol_mull tol_im Hartree Bohr X q r /\ fst (snd (m_call m ms q (r_dq r))) = true.
Proof. exact calculate_scc. Qed.
Theorem C186_anderson :
  forall (sv : solver) (p : params) (n : nat), (0 < n)%nat -> accepts_within (anderson_mixer sv p n) n (convergence p).
Proof. exact anderson_accepts. Qed.
Theorem C186_pulay :
  forall (iv : inverter) (p : params) (n : nat), accepts_within (pulay_mixer iv p n) n (convergence p).
Proof. exact pulay_accepts. Qed.
Theorem C186_ground_state :
  forall (erfc : R -> R) (Bohr Hartree : R) (gaussian : bool) (gamma_cut : option R) (goal width sepsilon : R) (D : database) 
    (g : structure) (inv : nat -> nat),
  sound D g inv ->
  0 < width ->
  (forall k : nat, (k < g_nk g)%nat -> 0 <= g_wk g k) ->
  forall (z : InvSpec.lapack) (evmin : (nat -> nat -> cplx) -> R) (w0 : nat -> nat -> R) (MAXE : R)
    (brentq : (R -> R) -> R -> R -> R -> option R) (tol_norm tol_mull tol_im : R),
  0 <= tol_norm ->
  forall (X : system) (K : nat -> nat -> R),
  assemble erfc Bohr Hartree gaussian gamma_cut goal width sepsilon true D g = Some X ->
  reliable z w0 X ->
  (forall I : nat, (I < g_N g)%nat -> g_ext g I = 0) ->
  interacts_by X K ->
  forall (q : vec) (r : result),
  computed_from z evmin w0 MAXE brentq tol_norm tol_mull tol_im Hartree Bohr X q r ->
  (exists W : nat -> nat -> nat -> cplx,
     electrons_in X W (r_f r) /\
     r_dq r = charges_of X W (r_f r) /\ electronic_free_energy X r = free_of X W (r_f r) (coulomb_of (s_N X) K (r_dq r))) /\
  (exists mu : R,
     forall (V : nat -> nat -> nat -> cplx) (f : nat -> nat -> R),
     electrons_in X V f ->
     electronic_free_energy X r + coulomb_of (s_N X) K (fun I : nat => charges_of X V f I - r_dq r I) <=
     free_of X V f (coulomb_of (s_N X) K (charges_of X V f)) +
     mu * (filling (s_norb X) (s_nk X) (s_wk X) (r_f r) - filling (s_norb X) (s_nk X) (s_wk X) f) +
     mismatch (s_N X) K q (r_dq r) (charges_of X V f) + emptied MAXE X (r_f r)).
Proof. exact ground_scc. Qed.
Theorem C186_converged :
  forall (erfc : R -> R) (Bohr Hartree : R) (gaussian : bool) (gamma_cut : option R) (goal width sepsilon : R) (D : database) 
    (g : structure) (inv : nat -> nat),
  sound D g inv ->
  0 < width ->
  (forall k : nat, (k < g_nk g)%nat -> 0 <= g_wk g k) ->
  forall (z : InvSpec.lapack) (evmin : (nat -> nat -> cplx) -> R) (w0 : nat -> nat -> R) (MAXE : R)
    (brentq : (R -> R) -> R -> R -> R -> option R) (tol_norm tol_mull tol_im : R) (maxiter : nat),
  0 <= tol_norm ->
  forall (X : system) (K : nat -> nat -> R),
  assemble erfc Bohr Hartree gaussian gamma_cut goal width sepsilon true D g = Some X ->
  reliable z w0 X ->
  (forall I : nat, (I < g_N g)%nat -> g_ext g I = 0) ->
  interacts_by X K ->
  forall (m : mixer) (s : mst m) (u : vec) (r : result) (it : option nat) (n : nat) (eps : R) (V : nat -> nat -> nat -> cplx)
    (f : nat -> nat -> R),
  accepts_within m (s_N X) eps ->
  costs (s_N X) K ->
  calculate z evmin w0 MAXE brentq m tol_norm tol_mull tol_im Hartree Bohr true maxiter X s u = Solved r it n ->
  electrons_in X V f ->
  filling (s_norb X) (s_nk X) (s_wk X) f = filling (s_norb X) (s_nk X) (s_wk X) (r_f r) ->
  electronic_free_energy X r <=
  free_of X V f (coulomb_of (s_N X) K (charges_of X V f)) + eps * interaction_size (s_N X) K (fun I : nat => charges_of X V f I - r_dq r I) +
  emptied MAXE X (r_f r).
Proof. exact ground_converged. Qed.
(** C187: two calculations.  Case: ex_ground with scc = true, taken twice *)
Theorem C187_same_within :
  forall (erfc : R -> R) (Bohr Hartree : R) (gaussian : bool) (gamma_cut : option R) (goal width sepsilon : R) (D : database) 
    (g : structure) (inv : nat -> nat),
  sound D g inv ->
  0 < width ->
  (forall k : nat, (k < g_nk g)%nat -> 0 <= g_wk g k) ->
  forall (X : system) (K : nat -> nat -> R),
  assemble erfc Bohr Hartree gaussian gamma_cut goal width sepsilon true D g = Some X ->
  (forall I : nat, (I < g_N g)%nat -> g_ext g I = 0) ->
  interacts_by X K ->
  forall (z z' : InvSpec.lapack) (evmin evmin' : (nat -> nat -> cplx) -> R) (w0 w0' : nat -> nat -> R) (MAXE MAXE' : R)
    (brentq brentq' : (R -> R) -> R -> R -> R -> option R) (tol_norm tol_mull tol_im tol_norm' tol_mull' tol_im' : R) 
    (maxiter maxiter' : nat),
  0 <= tol_norm ->
  0 <= tol_norm' ->
  reliable z w0 X ->
  reliable z' w0' X ->
  forall (m m' : mixer) (s : mst m) (s' : mst m') (u u' : vec) (r r' : result) (it it' : option nat) (n n' : nat) (eps eps' : R),
  costs (s_N X) K ->
  accepts_within m (s_N X) eps ->
  accepts_within m' (s_N X) eps' ->
  calculate z evmin w0 MAXE brentq m tol_norm tol_mull tol_im Hartree Bohr true maxiter X s u = Solved r it n ->
  calculate z' evmin' w0' MAXE' brentq' m' tol_norm' tol_mull' tol_im' Hartree Bohr true maxiter' X s' u' = Solved r' it' n' ->
  filling (s_norb X) (s_nk X) (s_wk X) (r_f r') = filling (s_norb X) (s_nk X) (s_wk X) (r_f r) ->
  let d := fun I : nat => r_dq r' I - r_dq r I in
  2 * coulomb_of (s_N X) K d <= (eps + eps') * interaction_size (s_N X) K d + emptied MAXE X (r_f r) + emptied MAXE' X (r_f r') /\
  electronic_free_energy X r - electronic_free_energy X r' <= eps * interaction_size (s_N X) K d + emptied MAXE X (r_f r) /\
  electronic_free_energy X r' - electronic_free_energy X r <= eps' * interaction_size (s_N X) K d + emptied MAXE' X (r_f r').
Proof. exact two_calculations. Qed.
Theorem C187_unique :
  forall (erfc : R -> R) (Bohr Hartree : R) (gaussian : bool) (gamma_cut : option R) (goal width sepsilon : R) (D : database) 
    (g : structure) (inv : nat -> nat),
  sound D g inv ->
  0 < width ->
  (forall k : nat, (k < g_nk g)%nat -> 0 <= g_wk g k) ->
  forall (X : system) (K : nat -> nat -> R),
  assemble erfc Bohr Hartree gaussian gamma_cut goal width sepsilon true D g = Some X ->
  (forall I : nat, (I < g_N g)%nat -> g_ext g I = 0) ->
  interacts_by X K ->
  forall (z z' : InvSpec.lapack) (evmin evmin' : (nat -> nat -> cplx) -> R) (w0 w0' : nat -> nat -> R) (MAXE MAXE' : R)
    (brentq brentq' : (R -> R) -> R -> R -> R -> option R) (tol_norm tol_mull tol_im tol_norm' tol_mull' tol_im' : R),
  0 <= tol_norm ->
  0 <= tol_norm' ->
  reliable z w0 X ->
  reliable z' w0' X ->
  forall (q q' : vec) (r r' : result),
  computed_from z evmin w0 MAXE brentq tol_norm tol_mull tol_im Hartree Bohr X q r ->
  computed_from z' evmin' w0' MAXE' brentq' tol_norm' tol_mull' tol_im' Hartree Bohr X q' r' ->
  filling (s_norb X) (s_nk X) (s_wk X) (r_f r') = filling (s_norb X) (s_nk X) (s_wk X) (r_f r) ->
  (forall I : nat, (I < s_N X)%nat -> r_dq r I = q I) ->
  (forall I : nat, (I < s_N X)%nat -> r_dq r' I = q' I) ->
  (forall k a : nat, (k < s_nk X)%nat -> (a < s_norb X)%nat -> r_f r k a <> 0 /\ r_f r' k a <> 0) ->
  costs_strictly (s_N X) K ->
  electronic_free_energy X r' = electronic_free_energy X r /\ (forall I : nat, (I < s_N X)%nat -> r_dq r' I = r_dq r I).
Proof. exact unique_charges. Qed.
Theorem C187_result :
  forall (erfc : R -> R) (Bohr Hartree : R) (gaussian : bool) (gamma_cut : option R) (goal width sepsilon : R) (D : database) 
    (g : structure) (inv : nat -> nat),
  sound D g inv ->
  0 < width ->
  (forall k : nat, (k < g_nk g)%nat -> 0 <= g_wk g k) ->
  forall (X : system) (K : nat -> nat -> R),
  assemble erfc Bohr Hartree gaussian gamma_cut goal width sepsilon true D g = Some X ->
  (forall I : nat, (I < g_N g)%nat -> g_ext g I = 0) ->
  interacts_by X K ->
  forall (z z' : InvSpec.lapack) (evmin evmin' : (nat -> nat -> cplx) -> R) (w0 w0' : nat -> nat -> R) (MAXE : R)
    (brentq : (R -> R) -> R -> R -> R -> option R) (tol_norm tol_mull tol_im : R),
  0 <= tol_norm ->
  reliable z w0 X ->
  reliable z' w0' X ->
  forall (q q' : vec) (r r' : result),
  computed_from z evmin w0 MAXE brentq tol_norm tol_mull tol_im Hartree Bohr X q r ->
  computed_from z' evmin' w0' MAXE brentq tol_norm tol_mull tol_im Hartree Bohr X q' r' ->
  filling (s_norb X) (s_nk X) (s_wk X) (r_f r') = filling (s_norb X) (s_nk X) (s_wk X) (r_f r) ->
  (forall I : nat, (I < s_N X)%nat -> r_dq r I = q I) ->
  (forall I : nat, (I < s_N X)%nat -> r_dq r' I = q' I) ->
  (forall k a : nat, (k < s_nk X)%nat -> (a < s_norb X)%nat -> r_f r k a <> 0 /\ r_f r' k a <> 0) ->
  costs_strictly (s_N X) K -> equal_result X r r'.
Proof. exact unique_result. Qed.
(** the case for the two constants: ex_positive *)
Theorem C187_close :
  forall (erfc : R -> R) (Bohr Hartree : R) (gaussian : bool) (gamma_cut : option R) (goal width sepsilon : R) (D : database) 
    (g : structure) (inv : nat -> nat),
  sound D g inv ->
  0 < width ->
  (forall k : nat, (k < g_nk g)%nat -> 0 <= g_wk g k) ->
  forall (X : system) (K : nat -> nat -> R),
  assemble erfc Bohr Hartree gaussian gamma_cut goal width sepsilon true D g = Some X ->
  (forall I : nat, (I < g_N g)%nat -> g_ext g I = 0) ->
  interacts_by X K ->
  forall (z z' : InvSpec.lapack) (evmin evmin' : (nat -> nat -> cplx) -> R) (w0 w0' : nat -> nat -> R) (MAXE MAXE' : R)
    (brentq brentq' : (R -> R) -> R -> R -> R -> option R) (tol_norm tol_mull tol_im tol_norm' tol_mull' tol_im' : R) 
    (maxiter maxiter' : nat),
  0 <= tol_norm ->
  0 <= tol_norm' ->
  reliable z w0 X ->
  reliable z' w0' X ->
  forall (m m' : mixer) (s : mst m) (s' : mst m') (u u' : vec) (r r' : result) (it it' : option nat) (n n' : nat) (eps eps' kappa L : R),
  0 < kappa ->
  costs_at_least (s_N X) K kappa ->
  (forall I : nat, (I < s_N X)%nat -> rsum (s_N X) (fun J : nat => Rabs (K I J)) <= L) ->
  0 <= eps ->
  0 <= eps' ->
  accepts_within m (s_N X) eps ->
  accepts_within m' (s_N X) eps' ->
  calculate z evmin w0 MAXE brentq m tol_norm tol_mull tol_im Hartree Bohr true maxiter X s u = Solved r it n ->
  calculate z' evmin' w0' MAXE' brentq' m' tol_norm' tol_mull' tol_im' Hartree Bohr true maxiter' X s' u' = Solved r' it' n' ->
  filling (s_norb X) (s_nk X) (s_wk X) (r_f r') = filling (s_norb X) (s_nk X) (s_wk X) (r_f r) ->
  (forall k a : nat, (k < s_nk X)%nat -> (a < s_norb X)%nat -> r_f r k a <> 0 /\ r_f r' k a <> 0) ->
  rsum (s_N X) (fun I : nat => Rabs (r_dq r' I - r_dq r I)) <= INR (s_N X) * (eps + eps') * L / kappa /\
  Rabs (electronic_free_energy X r' - electronic_free_energy X r) <= Rmax eps eps' * L * (INR (s_N X) * (eps + eps') * L / kappa).
Proof. exact close_calculations. Qed.
(** C188: widths.  Case: ex_widths with two widths *)
Theorem C188_warmer :
  forall (erfc : R -> R) (Bohr Hartree : R) (gaussian : bool) (gamma_cut : option R) (goal width width' sepsilon : R) 
    (D : database) (g : structure) (inv : nat -> nat),
  sound D g inv ->
  0 < width ->
  width < width' ->
  (forall k : nat, (k < g_nk g)%nat -> 0 <= g_wk g k) ->
  forall (z z' : InvSpec.lapack) (evmin evmin' : (nat -> nat -> cplx) -> R) (w0 w0' : nat -> nat -> R) (MAXE MAXE' : R)
    (brentq brentq' : (R -> R) -> R -> R -> R -> option R) (tol_norm tol_mull tol_im tol_norm' tol_mull' tol_im' : R) 
    (maxiter maxiter' : nat),
  0 <= tol_norm ->
  0 <= tol_norm' ->
  forall (m m' : mixer) (X X' : system) (s : mst m) (s' : mst m') (u u' : vec) (r r' : result) (it it' : option nat) (n n' : nat),
  assemble erfc Bohr Hartree gaussian gamma_cut goal width sepsilon false D g = Some X ->
  assemble erfc Bohr Hartree gaussian gamma_cut goal width' sepsilon false D g = Some X' ->
  reliable z w0 X ->
  reliable z' w0' X' ->
  calculate z evmin w0 MAXE brentq m tol_norm tol_mull tol_im Hartree Bohr false maxiter X s u = Solved r it n ->
  calculate z' evmin' w0' MAXE' brentq' m' tol_norm' tol_mull' tol_im' Hartree Bohr false maxiter' X' s' u' = Solved r' it' n' ->
  filling (s_norb X) (s_nk X) (s_wk X) (r_f r') = filling (s_norb X) (s_nk X) (s_wk X) (r_f r) ->
  electronic_free_energy X' r' <= electronic_free_energy X r + emptied MAXE' X' (r_f r') /\
  ((forall k a : nat, (k < s_nk X)%nat -> (a < s_norb X)%nat -> r_f r k a <> 0 /\ r_f r' k a <> 0) ->
   entropy_of X r <= entropy_of X' r' /\ r_ebs r <= r_ebs r').
Proof. exact warmer. Qed.
Theorem C188_warmer_scc :
  forall (erfc : R -> R) (Bohr Hartree : R) (gaussian : bool) (gamma_cut : option R) (goal width width' sepsilon : R) 
    (D : database) (g : structure) (inv : nat -> nat),
  sound D g inv ->
  0 < width ->
  width < width' ->
  (forall k : nat, (k < g_nk g)%nat -> 0 <= g_wk g k) ->
  forall (z z' : InvSpec.lapack) (evmin evmin' : (nat -> nat -> cplx) -> R) (w0 w0' : nat -> nat -> R) (MAXE MAXE' : R)
    (brentq brentq' : (R -> R) -> R -> R -> R -> option R) (tol_norm tol_mull tol_im tol_norm' tol_mull' tol_im' : R),
  0 <= tol_norm ->
  0 <= tol_norm' ->
  forall (X X' : system) (K : nat -> nat -> R) (q q' : vec) (r r' : result),
  assemble erfc Bohr Hartree gaussian gamma_cut goal width sepsilon true D g = Some X ->
  assemble erfc Bohr Hartree gaussian gamma_cut goal width' sepsilon true D g = Some X' ->
  reliable z w0 X ->
  reliable z' w0' X' ->
  (forall I : nat, (I < g_N g)%nat -> g_ext g I = 0) ->
  interacts_by X K ->
  costs (s_N X) K ->
  computed_from z evmin w0 MAXE brentq tol_norm tol_mull tol_im Hartree Bohr X q r ->
  computed_from z' evmin' w0' MAXE' brentq' tol_norm' tol_mull' tol_im' Hartree Bohr X' q' r' ->
  (forall I : nat, (I < s_N X)%nat -> r_dq r I = q I) ->
  (forall I : nat, (I < s_N X)%nat -> r_dq r' I = q' I) ->
  filling (s_norb X) (s_nk X) (s_wk X) (r_f r') = filling (s_norb X) (s_nk X) (s_wk X) (r_f r) ->
  electronic_free_energy X' r' <= electronic_free_energy X r + emptied MAXE' X' (r_f r') /\
  ((forall k a : nat, (k < s_nk X)%nat -> (a < s_norb X)%nat -> r_f r k a <> 0 /\ r_f r' k a <> 0) ->
   entropy_of X r <= entropy_of X' r' /\ r_ebs r + r_ecoul r <= r_ebs r' + r_ecoul r').
Proof. exact warmer_scc. Qed.
(** C189: molecules with Gaussian charges.  Case: ex_positive with ex_ground; erfc_exists in GamProofs5 gives an erfc *)
Theorem C189_energy :
  forall erfc : R -> R,
  is_erfc erfc ->
  forall Bohr Hartree goal width sepsilon : R,
  0 < Bohr ->
  forall (D : database) (g : structure),
  molecule g ->
  wide_enough D g ->
  forall X : system,
  assemble erfc Bohr Hartree true None goal width sepsilon true D g = Some X -> forall q : nat -> R, 0 <= energy_of_charges X q.
Proof. exact charges_cost. Qed.
Theorem C189_costs :
  forall (erfc : R -> R) (Bohr Hartree goal width sepsilon : R) (D : database) (g : structure) (X : system) (K : nat -> nat -> R),
  is_erfc erfc ->
  0 < Bohr ->
  molecule g ->
  wide_enough D g -> assemble erfc Bohr Hartree true None goal width sepsilon true D g = Some X -> interacts_by X K -> costs (s_N X) K.
Proof. exact molecules_cost. Qed.
Theorem C189_costs_more :
  forall (erfc : R -> R) (Bohr Hartree goal width sepsilon : R) (D : database) (g : structure) (X : system) (K : nat -> nat -> R) (kappa : R),
  is_erfc erfc ->
  0 < Bohr ->
  molecule g ->
  wide_enough D g ->
  assemble erfc Bohr Hartree true None goal width sepsilon true D g = Some X ->
  interacts_by X K ->
  (forall I : nat, (I < g_N g)%nat -> kappa + 2 / sqrt PI * gauss_const (d_FWHM D (g_kind g I)) (d_FWHM D (g_kind g I)) <= d_U D (g_kind g I)) ->
  costs_at_least (s_N X) K kappa.
Proof. exact molecules_cost_more. Qed.
Theorem C189_ground_state :
  forall (erfc : R -> R) (Bohr Hartree goal width sepsilon : R) (D : database) (g : structure) (inv : nat -> nat),
  is_erfc erfc ->
  0 < Bohr ->
  molecule g ->
  wide_enough D g ->
  sound D g inv ->
  0 < width ->
  forall (X : system) (K : nat -> nat -> R),
  assemble erfc Bohr Hartree true None goal width sepsilon true D g = Some X ->
  (forall I : nat, (I < g_N g)%nat -> g_ext g I = 0) ->
  interacts_by X K ->
  forall (z : InvSpec.lapack) (evmin : (nat -> nat -> cplx) -> R) (w0 : nat -> nat -> R) (MAXE : R)
    (brentq : (R -> R) -> R -> R -> R -> option R) (tol_norm tol_mull tol_im : R) (maxiter : nat),
  0 <= tol_norm ->
  reliable z w0 X ->
  forall (m : mixer) (s : mst m) (u : vec) (r : result) (it : option nat) (n : nat) (eps : R) (V : nat -> nat -> nat -> cplx)
    (f : nat -> nat -> R),
  accepts_within m (s_N X) eps ->
  calculate z evmin w0 MAXE brentq m tol_norm tol_mull tol_im Hartree Bohr true maxiter X s u = Solved r it n ->
  electrons_in X V f ->
  filling (s_norb X) (s_nk X) (s_wk X) f = filling (s_norb X) (s_nk X) (s_wk X) (r_f r) ->
  electronic_free_energy X r <=
  free_of X V f (energy_of_charges X (charges_of X V f)) + eps * interaction_size (s_N X) K (fun I : nat => charges_of X V f I - r_dq r I) +
  emptied MAXE X (r_f r).
Proof. exact molecule_ground_state. Qed.
(** distributions narrower than that *)
Theorem C189_narrow_refuted :
  forall erfc : R -> R,
  is_erfc erfc ->
  exists (D : database) (g : structure) (X : system) (q : vec),
    molecule g /\
    (forall I : nat, (I < g_N g)%nat -> 0 < d_U D (g_kind g I) /\ 0 < d_FWHM D (g_kind g I)) /\
    assemble erfc 1 1 true None 1 (/ 10) 0 true D g = Some X /\ rsum (s_N X) q = 0 /\ energy_of_charges X q < 0.
Proof. exact narrow. Qed.
Print Assumptions C185_ground_state.
Print Assumptions C185_energy.
Print Assumptions C186_interaction.
Print Assumptions C186_last_step.
Print Assumptions C186_anderson.
Print Assumptions C186_pulay.
Print Assumptions C186_ground_state.
Print Assumptions C186_converged.
Print Assumptions C187_same_within.
Print Assumptions C187_unique.
Print Assumptions C187_result.
Print Assumptions C187_close.
Print Assumptions C188_warmer.
Print Assumptions C188_warmer_scc.
Print Assumptions C189_energy.
Print Assumptions C189_costs.
Print Assumptions C189_costs_more.
Print Assumptions C189_ground_state.
Print Assumptions C189_narrow_refuted.
