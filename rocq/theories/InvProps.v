From Coq Require Import Reals ZArith List Bool Arith.
From Verif Require Import Vec GeomModel CoulModel MixModel OccModel PairModel PairSpec SkModel SkSpec Cpx RhoModel RhoSpec EigModel EigSpec GamModel InvModel InvSpec InvProofs4 InvProofs12 InvProofs13 InvProofs14 InvProofs15.
Import ListNotations.
Open Scope R_scope.

(** C159: nothing that is returned depends on how LAPACK chooses eigenvectors.  Cases: ex_assembled, z2_contract, z2_reliable *)
Theorem C159_any_solver :
  forall (erfc : R -> R) (Bohr Hartree : R) (gaussian : bool) (gamma_cut : option R) (goal width sepsilon : R) (scc : bool) 
    (D : database) (g : structure) (inv : nat -> nat) (X : system) (z z' : lapack) (w0 w0' : nat -> nat -> R)
    (evmin evmin' : (nat -> nat -> cplx) -> R) (MAXE : R) (brentq : (R -> R) -> R -> R -> R -> option R) (m : mixer)
    (tol_norm tol_mull tol_im : R) (maxiter : nat) (ms : mst m) (u v : nat -> R),
  sound D g inv ->
  assemble erfc Bohr Hartree gaussian gamma_cut goal width sepsilon scc D g = Some X ->
  reliable z w0 X ->
  reliable z' w0' X ->
  0 <= tol_norm ->
  fresh (s_N X) m ms ->
  (forall I : nat, (I < s_N X)%nat -> v I = u I) ->
  equal_answer X (calculate z evmin w0 MAXE brentq m tol_norm tol_mull tol_im Hartree Bohr scc maxiter X ms u)
    (calculate z' evmin' w0' MAXE brentq m tol_norm tol_mull tol_im Hartree Bohr scc maxiter X ms v).
Proof. exact any_solver. Qed.
Theorem C159_system :
  forall (X : system) (z z' : lapack) (w0 w0' : nat -> nat -> R) (evmin evmin' : (nat -> nat -> cplx) -> R) (MAXE : R)
    (brentq : (R -> R) -> R -> R -> R -> option R) (m : mixer) (tol_norm tol_mull tol_im Hartree Bohr : R) (scc : bool) 
    (maxiter : nat) (ms : mst m) (u v : nat -> R),
  well_formed X ->
  proper X ->
  reliable z w0 X ->
  reliable z' w0' X ->
  0 <= tol_norm ->
  fresh (s_N X) m ms ->
  (forall I : nat, (I < s_N X)%nat -> v I = u I) ->
  equal_answer X (calculate z evmin w0 MAXE brentq m tol_norm tol_mull tol_im Hartree Bohr scc maxiter X ms u)
    (calculate z' evmin' w0' MAXE brentq m tol_norm tol_mull tol_im Hartree Bohr scc maxiter X ms v).
Proof. exact solver_irrelevant. Qed.
Theorem C159_well_formed :
  forall (erfc : R -> R) (Bohr Hartree : R) (gaussian : bool) (gamma_cut : option R) (goal width sepsilon : R) (scc : bool) 
    (D : database) (g : structure) (X : system),
  assemble erfc Bohr Hartree gaussian gamma_cut goal width sepsilon scc D g = Some X -> well_formed X.
Proof. exact assembled_well. Qed.
Theorem C159_hermitian :
  forall (erfc : R -> R) (Bohr Hartree : R) (gaussian : bool) (gamma_cut : option R) (goal width sepsilon : R) (scc : bool) 
    (D : database) (g : structure) (inv : nat -> nat) (X : system),
  sound D g inv -> assemble erfc Bohr Hartree gaussian gamma_cut goal width sepsilon scc D g = Some X -> proper X.
Proof. exact assembled_proper. Qed.
(** C160: renumbering the atoms.  Cases: ex_swapped, ex_sound, ex_one_table, ex_assembled *)
Theorem C160_same_physics :
  forall (s : nat -> nat) (T : nat -> nat -> nat -> cplx) (Q : nat -> nat -> R) (X Y : system) (z z' : lapack) (w0 w0' : nat -> nat -> R)
    (evmin evmin' : (nat -> nat -> cplx) -> R) (MAXE : R) (brentq : (R -> R) -> R -> R -> R -> option R) (m : mixer)
    (tol_norm tol_mull tol_im Hartree Bohr : R) (scc : bool) (maxiter : nat) (ms : mst m) (u v : vec),
  equivalent s T Q X Y ->
  proper X ->
  reliable z w0 X ->
  reliable z' w0' Y ->
  0 <= tol_norm ->
  fresh (s_N X) m ms ->
  carried (s_N X) s u v ->
  same_answer s T Q X (calculate z evmin w0 MAXE brentq m tol_norm tol_mull tol_im Hartree Bohr scc maxiter X ms u)
    (calculate z' evmin' w0' MAXE brentq m tol_norm tol_mull tol_im Hartree Bohr scc maxiter Y ms v).
Proof. exact same_physics. Qed.
Theorem C160_accepted :
  forall (erfc : R -> R) (Bohr Hartree : R) (gaussian : bool) (gamma_cut : option R) (goal width sepsilon : R) (scc : bool) 
    (D : database) (g h : structure) (s : nat -> nat) (P : m3) (v : v3) (inv : nat -> nat),
  rigid_motion s P v g h ->
  sound D g inv ->
  sound D h inv ->
  (forall I : nat, (I < g_N g)%nat -> s I = I) \/ one_table D ->
  assemble erfc Bohr Hartree gaussian gamma_cut goal width sepsilon scc D g = None <->
  assemble erfc Bohr Hartree gaussian gamma_cut goal width sepsilon scc D h = None.
Proof. exact accepted. Qed.
Theorem C160_renumbered :
  forall (erfc : R -> R) (Bohr Hartree : R) (gaussian : bool) (gamma_cut : option R) (goal width sepsilon : R) (scc : bool) 
    (D : database) (g h : structure) (inv : nat -> nat) (X Y : system),
  assemble erfc Bohr Hartree gaussian gamma_cut goal width sepsilon scc D g = Some X ->
  assemble erfc Bohr Hartree gaussian gamma_cut goal width sepsilon scc D h = Some Y ->
  sound D g inv ->
  sound D h inv ->
  forall (s : nat -> nat) (P : m3) (v : v3) (z z' : lapack) (w0 w0' : nat -> nat -> R) (evmin evmin' : (nat -> nat -> cplx) -> R) 
    (MAXE : R) (brentq : (R -> R) -> R -> R -> R -> option R) (m : mixer) (tol_norm tol_mull tol_im : R) (maxiter : nat) 
    (ms : mst m) (u w : vec),
  rigid_motion s P v g h ->
  one_table D ->
  reliable z w0 X ->
  reliable z' w0' Y ->
  0 <= tol_norm ->
  fresh (g_N g) m ms ->
  carried (g_N g) s u w ->
  same_answer s (orbital_map D g h s P) (m3e P) X (calculate z evmin w0 MAXE brentq m tol_norm tol_mull tol_im Hartree Bohr scc maxiter X ms u)
    (calculate z' evmin' w0' MAXE brentq m tol_norm tol_mull tol_im Hartree Bohr scc maxiter Y ms w).
Proof. exact renumbered_and_moved. Qed.
Theorem C160_renumbered_refuted :
  exists (D : database) (g h : structure) (s inv : nat -> nat) (file : nat -> nat -> R -> nat -> R) (X Y : system),
    rigid_motion s eye vzero g h /\
    sound D g inv /\
    sound D h inv /\
    from_files (d_H D) file /\
    assemble (fun _ : R => 0) 1 1 true None 1 (/ 10) 0 false D g = Some X /\
    assemble (fun _ : R => 0) 1 1 true None 1 (/ 10) 0 false D h = Some Y /\
    (exists (z : lapack) (w0 : nat -> nat -> R), reliable z w0 X /\ reliable z w0 Y) /\
    s_erep X <> s_erep Y /\ cabs (s_H0 X 0%nat 0%nat 1%nat) <> cabs (s_H0 Y 0%nat (s 0%nat) (s 1%nat)).
Proof. exact renumbering_refuted. Qed.
(** C161: rotating, reflecting and translating the structure.  Cases: ex_moved, ex_sound, ex_assembled, ex_distances *)
Theorem C161_systems :
  forall (erfc : R -> R) (Bohr Hartree : R) (gaussian : bool) (gamma_cut : option R) (goal width sepsilon : R) (scc : bool) 
    (D : database) (g h : structure) (s : nat -> nat) (P : m3) (v : v3) (inv : nat -> nat),
  rigid_motion s P v g h ->
  sound D g inv ->
  sound D h inv ->
  (forall I : nat, (I < g_N g)%nat -> s I = I) \/ one_table D ->
  match assemble erfc Bohr Hartree gaussian gamma_cut goal width sepsilon scc D g with
  | Some X =>
      match assemble erfc Bohr Hartree gaussian gamma_cut goal width sepsilon scc D h with
      | Some Y => equivalent s (orbital_map D g h s P) (m3e P) X Y /\ proper X
      | None => False
      end
  | None => match assemble erfc Bohr Hartree gaussian gamma_cut goal width sepsilon scc D h with
            | Some _ => False
            | None => True
            end
  end.
Proof. exact assembled_alike. Qed.
Theorem C161_moved :
  forall (erfc : R -> R) (Bohr Hartree : R) (gaussian : bool) (gamma_cut : option R) (goal width sepsilon : R) (scc : bool) 
    (D : database) (g h : structure) (inv : nat -> nat) (X Y : system),
  assemble erfc Bohr Hartree gaussian gamma_cut goal width sepsilon scc D g = Some X ->
  assemble erfc Bohr Hartree gaussian gamma_cut goal width sepsilon scc D h = Some Y ->
  sound D g inv ->
  sound D h inv ->
  forall (P : m3) (v : v3) (z z' : lapack) (w0 w0' : nat -> nat -> R) (evmin evmin' : (nat -> nat -> cplx) -> R) (MAXE : R)
    (brentq : (R -> R) -> R -> R -> R -> option R) (m : mixer) (tol_norm tol_mull tol_im : R) (maxiter : nat) (ms : mst m) 
    (u w : nat -> R),
  rigid_motion (fun I : nat => I) P v g h ->
  reliable z w0 X ->
  reliable z' w0' Y ->
  0 <= tol_norm ->
  fresh (g_N g) m ms ->
  (forall I : nat, (I < g_N g)%nat -> w I = u I) ->
  same_answer (fun I : nat => I) (orbital_map D g h (fun I : nat => I) P) (m3e P) X
    (calculate z evmin w0 MAXE brentq m tol_norm tol_mull tol_im Hartree Bohr scc maxiter X ms u)
    (calculate z' evmin' w0' MAXE brentq m tol_norm tol_mull tol_im Hartree Bohr scc maxiter Y ms w).
Proof. exact moved. Qed.
Print Assumptions C159_any_solver.
Print Assumptions C159_system.
Print Assumptions C159_well_formed.
Print Assumptions C159_hermitian.
Print Assumptions C160_same_physics.
Print Assumptions C160_accepted.
Print Assumptions C160_renumbered.
Print Assumptions C160_renumbered_refuted.
Print Assumptions C161_systems.
Print Assumptions C161_moved.
