(** Renumbering the atoms, and moving the structure. *)
From Coq Require Import Reals ZArith List Bool Arith Lia Lra.
From Verif Require Import Vec GeomModel CoulModel MixModel PairModel PairSpec SkModel SkSpec Cpx RhoModel RhoSpec EigModel EigSpec GamModel InvModel InvSpec InvProofs12 InvProofs13.
Import ListNotations.
Open Scope R_scope.

Lemma accepted erfc Bohr Hartree gaussian gamma_cut goal width sepsilon scc D g h s P v inv :
  rigid_motion s P v g h -> sound D g inv -> sound D h inv -> (forall I, (I < g_N g)%nat -> s I = I) \/ one_table D ->
  (assemble erfc Bohr Hartree gaussian gamma_cut goal width sepsilon scc D g = None <-> assemble erfc Bohr Hartree gaussian gamma_cut goal width sepsilon scc D h = None).
Proof.
  intros M Sg Sh H. pose proof (assembled_alike erfc Bohr Hartree gaussian gamma_cut goal width sepsilon scc D g h s P v inv M Sg Sh H) as A.
  destruct (assemble _ _ _ _ _ _ _ _ _ D g), (assemble _ _ _ _ _ _ _ _ _ D h); split; intros E; try discriminate; try contradiction; reflexivity.
Qed.
Section Both.
Context (erfc : R -> R) (Bohr Hartree : R) (gaussian : bool) (gamma_cut : option R) (goal width sepsilon : R) (scc : bool).
Context (D : database) (g h : structure) (inv : nat -> nat) (X Y : system).
Context (EX : assemble erfc Bohr Hartree gaussian gamma_cut goal width sepsilon scc D g = Some X) (EY : assemble erfc Bohr Hartree gaussian gamma_cut goal width sepsilon scc D h = Some Y).
Context (Sg : sound D g inv) (Sh : sound D h inv).
Lemma renumbered_and_moved s P v z z' w0 w0' evmin evmin' MAXE brentq m tol_norm tol_mull tol_im maxiter ms u w :
  rigid_motion s P v g h -> one_table D -> reliable z w0 X -> reliable z' w0' Y -> 0 <= tol_norm -> fresh (g_N g) m ms -> carried (g_N g) s u w ->
  same_answer s (orbital_map D g h s P) (m3e P) X (calculate z evmin w0 MAXE brentq m tol_norm tol_mull tol_im Hartree Bohr scc maxiter X ms u)
                                                  (calculate z' evmin' w0' MAXE brentq m tol_norm tol_mull tol_im Hartree Bohr scc maxiter Y ms w).
Proof.
  intros M OT. pose proof (moved_alike erfc Bohr Hartree gaussian gamma_cut goal width sepsilon scc D g h s P v inv M Sg Sh (or_intror OT) z z' w0 w0' evmin evmin' MAXE brentq m tol_norm tol_mull tol_im maxiter ms u w) as A.
  rewrite EX, EY in A. exact A.
Qed.
Lemma moved P v z z' w0 w0' evmin evmin' MAXE brentq m tol_norm tol_mull tol_im maxiter ms u w :
  rigid_motion (fun I => I) P v g h -> reliable z w0 X -> reliable z' w0' Y -> 0 <= tol_norm -> fresh (g_N g) m ms -> (forall I, (I < g_N g)%nat -> w I = u I) ->
  same_answer (fun I => I) (orbital_map D g h (fun I => I) P) (m3e P) X (calculate z evmin w0 MAXE brentq m tol_norm tol_mull tol_im Hartree Bohr scc maxiter X ms u)
                                                                        (calculate z' evmin' w0' MAXE brentq m tol_norm tol_mull tol_im Hartree Bohr scc maxiter Y ms w).
Proof.
  intros M. pose proof (moved_alike erfc Bohr Hartree gaussian gamma_cut goal width sepsilon scc D g h (fun I => I) P v inv M Sg Sh (or_introl (fun I _ => eq_refl)) z z' w0 w0' evmin evmin' MAXE brentq m tol_norm tol_mull tol_im maxiter ms u w) as A.
  rewrite EX, EY in A. exact A.
Qed.
End Both.
(** the solver is irrelevant for every structure *)
Lemma any_solver erfc Bohr Hartree gaussian gamma_cut goal width sepsilon scc D g inv X z z' w0 w0' evmin evmin' MAXE brentq m tol_norm tol_mull tol_im maxiter ms u v :
  sound D g inv -> assemble erfc Bohr Hartree gaussian gamma_cut goal width sepsilon scc D g = Some X -> reliable z w0 X -> reliable z' w0' X -> 0 <= tol_norm ->
  fresh (s_N X) m ms -> (forall I, (I < s_N X)%nat -> v I = u I) ->
  equal_answer X (calculate z evmin w0 MAXE brentq m tol_norm tol_mull tol_im Hartree Bohr scc maxiter X ms u)
                 (calculate z' evmin' w0' MAXE brentq m tol_norm tol_mull tol_im Hartree Bohr scc maxiter X ms v).
Proof.
  intros Sg EX RX RY Ht F C. apply solver_irrelevant; try assumption; [exact (assembled_well _ _ _ _ _ _ _ _ _ _ _ _ EX)|exact (assembled_proper _ _ _ _ _ _ _ _ _ _ _ _ _ Sg EX)].
Qed.
