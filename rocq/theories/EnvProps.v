From Coq Require Import Reals List Bool Arith Permutation.
From Verif Require Import Vec EnvModel EnvSpec EnvProofs.
Import ListNotations.
Open Scope R_scope.

(** C145: external potentials in force.  Cases: ex_history, ex_moved, ex_first *)
Theorem C145_sum :
  forall (e : env) (r : nat -> R), phi e r = superposition (e_phis e) r (e_t e).
Proof. exact phi_sum. Qed.
Theorem C145_order :
  forall (e : env) (fs : list potential) (r : nat -> R), Permutation (e_phis e) fs -> phi e r = phi {| e_t := e_t e; e_phis := fs |} r.
Proof. exact phi_order. Qed.
Theorem C145_history :
  forall (atoms : Type) (same : atoms -> atoms -> bool) (pos : atoms -> nat -> nat -> R) (xs : list (ecall atoms)) (a b : atoms)
    (h : list (ecall atoms)),
  starts_with_solve xs ->
  last_solution same [] None (xs ++ [Solve a]) = Some (b, h) ->
  exists v : nat -> R,
    snd (estep atoms same pos true (fst (eruns atoms same pos true (new_calc atoms) xs)) (Solve a)) = Ext v /\
    (forall i : nat, v i = superposition (added h) (pos b i) (elapsed h)).
Proof. exact history. Qed.
Theorem C145_new_geometry :
  forall (atoms : Type) (same : atoms -> atoms -> bool) (pos : atoms -> nat -> nat -> R) (xs : list (ecall atoms)) (a : atoms),
  starts_with_solve xs ->
  (forall b : atoms, In (Solve b) xs -> same b a = false) ->
  exists v : nat -> R,
    snd (estep atoms same pos true (fst (eruns atoms same pos true (new_calc atoms) xs)) (Solve a)) = Ext v /\
    (forall i : nat, v i = superposition (added xs) (pos a i) (elapsed xs)).
Proof. exact moved. Qed.
Theorem C145_stale_refuted :
  exists (f : potential) (v : nat -> R),
    snd
      (estep nat Nat.eqb (fun a _ k : nat => if k =? 0 then INR a else 0) true
         (fst (eruns nat Nat.eqb (fun a _ k : nat => if k =? 0 then INR a else 0) true (new_calc nat) [Solve 1%nat; AddPhi f])) 
         (Solve 1%nat)) = Ext v /\ v 0%nat <> superposition [f] (fun k : nat => if k =? 0 then INR 1 else 0) 0.
Proof. exact stale_field. Qed.
Theorem C145_time_refuted :
  exists (f : potential) (dt : R) (v : nat -> R),
    snd
      (estep nat Nat.eqb (fun a _ k : nat => if k =? 0 then INR a else 0) true
         (fst
            (eruns nat Nat.eqb (fun a _ k : nat => if k =? 0 then INR a else 0) true (new_calc nat)
               [Solve 1%nat; AddPhi f; Solve 2%nat; Propagate dt])) (Solve 2%nat)) = Ext v /\
    v 0%nat <> superposition [f] (fun k : nat => if k =? 0 then INR 2 else 0) dt.
Proof. exact stale_time. Qed.
Theorem C145_early :
  forall (atoms : Type) (same : atoms -> atoms -> bool) (pos : atoms -> nat -> nat -> R) (xs : list (ecall atoms)) (x : ecall atoms),
  (forall y : ecall atoms, In y xs -> is_solve y = false) ->
  is_solve x = false -> snd (estep atoms same pos true (fst (eruns atoms same pos true (new_calc atoms) xs)) x) = AttributeError.
Proof. exact early. Qed.
Theorem C145_without_scc :
  forall (atoms : Type) (same : atoms -> atoms -> bool) (pos : atoms -> nat -> nat -> R) (xs : list (ecall atoms)) (a : atoms),
  exists v : nat -> R,
    snd (estep atoms same pos false (fst (eruns atoms same pos false (new_calc atoms) xs)) (Solve a)) = Ext v /\ (forall i : nat, v i = 0).
Proof. exact no_scc. Qed.
Theorem C145_without_scc_refuted :
  exists (f : potential) (v : nat -> R),
    snd
      (estep nat Nat.eqb (fun a _ k : nat => if k =? 0 then INR a else 0) false
         (fst (eruns nat Nat.eqb (fun a _ k : nat => if k =? 0 then INR a else 0) false (new_calc nat) [Solve 1%nat; AddPhi f])) 
         (Solve 2%nat)) = Ext v /\ v 0%nat <> superposition [f] (fun k : nat => if k =? 0 then INR 2 else 0) 0.
Proof. exact ignored_field. Qed.
(** C146: laser.  A case: ex_laser *)
Theorem C146_laser :
  forall (Hartree energy flux phase : R) (p : nat -> R),
  0 < Hartree ->
  norm3 p <> 0 ->
  hbar * l_omega (new_laser Hartree energy flux p phase) * Hartree = energy /\
  Rabs (l_E0 (new_laser Hartree energy flux p phase) - 53 / 10 ^ 10 * sqrt flux) <= 4 / 10 ^ 11 * sqrt flux /\
  (forall (r s : nat -> R) (t : R),
   laser_phi (new_laser Hartree energy flux p phase) (fun k : nat => r k + s k) t =
   laser_phi (new_laser Hartree energy flux p phase) r t + laser_phi (new_laser Hartree energy flux p phase) s t) /\
  (forall (r : nat -> R) (t : R),
   Rabs (laser_phi (new_laser Hartree energy flux p phase) r t) <= l_E0 (new_laser Hartree energy flux p phase) * norm3 r) /\
  (forall t : R,
   sin (l_omega (new_laser Hartree energy flux p phase) * t + phase) = -1 ->
   laser_phi (new_laser Hartree energy flux p phase) p t = l_E0 (new_laser Hartree energy flux p phase) * norm3 p) /\
  (forall (r : nat -> R) (t : R), dot3 r p = 0 -> laser_phi (new_laser Hartree energy flux p phase) r t = 0) /\
  (energy <> 0 ->
   forall (r : nat -> R) (t : R),
   laser_phi (new_laser Hartree energy flux p phase) r (t + 2 * PI / l_omega (new_laser Hartree energy flux p phase)) =
   laser_phi (new_laser Hartree energy flux p phase) r t /\
   laser_phi (new_laser Hartree energy flux p phase) r (t + PI / l_omega (new_laser Hartree energy flux p phase)) =
   - laser_phi (new_laser Hartree energy flux p phase) r t).
Proof. exact laser_spec. Qed.
Theorem C146_direction :
  forall (Hartree energy flux phase : R) (p : nat -> R),
  norm3 p <> 0 ->
  forall (k : R) (r : nat -> R) (t : R),
  0 < k -> laser_phi (new_laser Hartree energy flux (fun i : nat => k * p i) phase) r t = laser_phi (new_laser Hartree energy flux p phase) r t.
Proof. exact laser_direction. Qed.
Print Assumptions C145_sum.
Print Assumptions C145_order.
Print Assumptions C145_history.
Print Assumptions C145_new_geometry.
Print Assumptions C145_stale_refuted.
Print Assumptions C145_time_refuted.
Print Assumptions C145_early.
Print Assumptions C145_without_scc.
Print Assumptions C145_without_scc_refuted.
Print Assumptions C146_laser.
Print Assumptions C146_direction.
