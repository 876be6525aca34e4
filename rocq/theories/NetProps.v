From Coq Require Import Reals ZArith String List Bool Arith.
From Verif Require Import InvModel InvSpec Vec GeomModel GeomSpec CoulModel MixModel OccModel PairModel PairSpec SkModel SkSpec Cpx RhoModel RhoSpec EigModel EigSpec GamModel GamSpec BndProofs5 FoldSpec NetSpec NetProofs7 NetProofs10.
Import ListNotations.
Open Scope R_scope.

(** C183: total force and torque.  Cases: ex_dimer, ex_crystal_solved, ex_wedge_solved, ex_chain_solved *)
Theorem C183_motion :
  forall (erfc : R -> R) (Bohr Hartree : R) (gaussian : bool) (gamma_cut : option R) (goal width sepsilon : R) (scc : bool) 
    (D : database) (g : structure) (inv : nat -> nat) (z : InvSpec.lapack) (evmin : (nat -> nat -> cplx) -> R) (w0 : nat -> nat -> R) 
    (MAXE : R) (brentq : (R -> R) -> R -> R -> R -> option R) (m : mixer) (tol_norm tol_mull tol_im : R) (maxiter : nat) 
    (X : system) (s : mst m) (u : vec) (r : result) (it : option nat) (n : nat),
  sound D g inv ->
  one_table D ->
  Bohr <> 0 ->
  0 <= tol_norm ->
  assemble erfc Bohr Hartree gaussian gamma_cut goal width sepsilon scc D g = Some X ->
  reliable z w0 X ->
  calculate z evmin w0 MAXE brentq m tol_norm tol_mull tol_im Hartree Bohr scc maxiter X s u = Solved r it n ->
  forall w om : v3, symmetric_motion w om g -> (scc = true -> closed_cells g) -> vdot w (net_force g r) + vdot om (net_torque g r) = 0.
Proof. exact totals. Qed.
Theorem C183_molecule :
  forall (erfc : R -> R) (Bohr Hartree : R) (gaussian : bool) (gamma_cut : option R) (goal width sepsilon : R) (scc : bool) 
    (D : database) (g : structure) (inv : nat -> nat) (z : InvSpec.lapack) (evmin : (nat -> nat -> cplx) -> R) (w0 : nat -> nat -> R) 
    (MAXE : R) (brentq : (R -> R) -> R -> R -> R -> option R) (m : mixer) (tol_norm tol_mull tol_im : R) (maxiter : nat) 
    (X : system) (s : mst m) (u : vec) (r : result) (it : option nat) (n : nat),
  sound D g inv ->
  one_table D ->
  Bohr <> 0 ->
  0 <= tol_norm ->
  assemble erfc Bohr Hartree gaussian gamma_cut goal width sepsilon scc D g = Some X ->
  reliable z w0 X ->
  calculate z evmin w0 MAXE brentq m tol_norm tol_mull tol_im Hartree Bohr scc maxiter X s u = Solved r it n ->
  molecule g -> net_force g r = vzero /\ net_torque g r = vzero.
Proof. exact molecule_totals. Qed.
Theorem C183_crystal :
  forall (erfc : R -> R) (Bohr Hartree : R) (gaussian : bool) (gamma_cut : option R) (goal width sepsilon : R) (scc : bool) 
    (D : database) (g : structure) (inv : nat -> nat) (z : InvSpec.lapack) (evmin : (nat -> nat -> cplx) -> R) (w0 : nat -> nat -> R) 
    (MAXE : R) (brentq : (R -> R) -> R -> R -> R -> option R) (m : mixer) (tol_norm tol_mull tol_im : R) (maxiter : nat) 
    (X : system) (s : mst m) (u : vec) (r : result) (it : option nat) (n : nat),
  sound D g inv ->
  one_table D ->
  Bohr <> 0 ->
  0 <= tol_norm ->
  assemble erfc Bohr Hartree gaussian gamma_cut goal width sepsilon scc D g = Some X ->
  reliable z w0 X ->
  calculate z evmin w0 MAXE brentq m tol_norm tol_mull tol_im Hartree Bohr scc maxiter X s u = Solved r it n ->
  forall a1 a2 a3 : v3, translated a1 a2 a3 g -> net_force g r = vzero.
Proof. exact translated_totals. Qed.
(** C184: wedges and screws about z.  Cases: ex_wedge_solved, ex_chain_solved *)
Theorem C184_wedge :
  forall (erfc : R -> R) (Bohr Hartree : R) (gaussian : bool) (gamma_cut : option R) (goal width sepsilon : R) (scc : bool) 
    (D : database) (g : structure) (inv : nat -> nat) (z : InvSpec.lapack) (evmin : (nat -> nat -> cplx) -> R) (w0 : nat -> nat -> R) 
    (MAXE : R) (brentq : (R -> R) -> R -> R -> R -> option R) (m : mixer) (tol_norm tol_mull tol_im : R) (maxiter : nat) 
    (X : system) (s : mst m) (u : vec) (r : result) (it : option nat) (n : nat),
  sound D g inv ->
  one_table D ->
  Bohr <> 0 ->
  0 <= tol_norm ->
  assemble erfc Bohr Hartree gaussian gamma_cut goal width sepsilon scc D g = Some X ->
  reliable z w0 X ->
  calculate z evmin w0 MAXE brentq m tol_norm tol_mull tol_im Hartree Bohr scc maxiter X s u = Solved r it n ->
  forall (M : nat) (zz : nat -> Z), wedge M zz g -> vz (net_force g r) = 0 /\ vz (net_torque g r) = 0.
Proof. exact wedge_totals. Qed.
Theorem C184_chain :
  forall (erfc : R -> R) (Bohr Hartree : R) (gaussian : bool) (gamma_cut : option R) (goal width sepsilon : R) (scc : bool) 
    (D : database) (g : structure) (inv : nat -> nat) (z : InvSpec.lapack) (evmin : (nat -> nat -> cplx) -> R) (w0 : nat -> nat -> R) 
    (MAXE : R) (brentq : (R -> R) -> R -> R -> R -> option R) (m : mixer) (tol_norm tol_mull tol_im : R) (maxiter : nat) 
    (X : system) (s : mst m) (u : vec) (r : result) (it : option nat) (n : nat),
  sound D g inv ->
  one_table D ->
  Bohr <> 0 ->
  0 <= tol_norm ->
  assemble erfc Bohr Hartree gaussian gamma_cut goal width sepsilon scc D g = Some X ->
  reliable z w0 X ->
  calculate z evmin w0 MAXE brentq m tol_norm tol_mull tol_im Hartree Bohr scc maxiter X s u = Solved r it n ->
  forall (zz : nat -> Z) (beta a : R) (kappa : nat -> R),
  chain zz beta {| vx := 0; vy := 0; vz := a |} kappa g -> vz (net_force g r) = 0 /\ vz (net_torque g r) = 0.
Proof. exact chain_totals. Qed.
Theorem C184_radial_refuted :
  exists
    (D : database) (g : structure) (inv : nat -> nat) (M : nat) (zz : nat -> Z) (X : system) (z : InvSpec.lapack) (w0 : nat -> nat -> R) 
  (evmin : (nat -> nat -> cplx) -> R) (m : mixer) (s : mst m) (u : vec) (r : result) (it : option nat) (n : nat),
    sound D g inv /\
    one_table D /\
    wedge M zz g /\
    assemble (fun _ : R => 0) 1 1 true None 1 (/ 10) 0 false D g = Some X /\
    reliable z w0 X /\ calculate z evmin w0 100 midpoint m 0 0 1 1 1 false 50 X s u = Solved r it n /\ net_force g r <> vzero.
Proof. exact radial_refuted. Qed.
Print Assumptions C183_motion.
Print Assumptions C183_molecule.
Print Assumptions C183_crystal.
Print Assumptions C184_wedge.
Print Assumptions C184_chain.
Print Assumptions C184_radial_refuted.
