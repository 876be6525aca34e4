From Coq Require Import Reals ZArith String List Bool Arith.
From Verif Require Import InvModel InvSpec Vec GeomModel GeomSpec CoulModel MixModel OccModel PairModel PairSpec SkModel SkSpec Cpx RhoModel RhoSpec EigModel EigSpec GamModel FoldSpec FoldProofs11 FoldProofs12 FoldProofs13 FoldProofs14 FoldProofs15.
Import ListNotations.
Open Scope R_scope.

(** C179: matrices of several copies.  Cases: ex_wedge_systems, ex_longer_systems, ex_root, ex_solver *)
Theorem C179_multiple :
  forall (m : nat) (p : nat -> nat -> nat -> cplx) (D Q : nat -> nat -> nat -> R) (X Y : system) (z z' : InvSpec.lapack)
    (w0 w0' : nat -> nat -> R) (evmin evmin' : (nat -> nat -> cplx) -> R) (MAXE : R) (brentq : (R -> R) -> R -> R -> R -> option R)
    (mx my : mixer) (tol_norm tol_mull tol_im Hartree Bohr : R) (scc : bool) (maxiter : nat) (sx : mst mx) (sy : mst my) 
    (u v : vec),
  unfolds m p D Q X Y ->
  layout (s_norb X) (s_N X) (s_o1 X) (s_no X) ->
  proper X ->
  reliable z w0 X ->
  reliable z' w0' Y ->
  0 <= tol_norm ->
  scale_free brentq ->
  fresh_pair (s_N X) (s_N Y) mx my sx sy ->
  repeated m (s_N X) u v ->
  multiple_answer m p D Q X Y (calculate z evmin w0 MAXE brentq mx tol_norm tol_mull tol_im Hartree Bohr scc maxiter X sx u)
    (calculate z' evmin' w0' MAXE brentq my tol_norm tol_mull tol_im Hartree Bohr scc maxiter Y sy v).
Proof. exact system_multiple. Qed.
Theorem C179_exact :
  forall (m : nat) (p : nat -> nat -> nat -> cplx) (D Q : nat -> nat -> nat -> R) (X Y : system) (z z' : InvSpec.lapack)
    (w0 w0' : nat -> nat -> R) (evmin evmin' : (nat -> nat -> cplx) -> R) (MAXE : R) (brentq : (R -> R) -> R -> R -> R -> option R)
    (mx my : mixer) (tol_norm tol_mull tol_im Hartree Bohr : R) (scc : bool) (maxiter : nat) (sx : mst mx) (sy : mst my) 
    (u v : vec),
  unfolds m p D Q X Y ->
  layout (s_norb X) (s_N X) (s_o1 X) (s_no X) ->
  proper X ->
  reliable z w0 X ->
  reliable z' w0' Y ->
  0 <= tol_norm ->
  scale_free brentq ->
  fresh_pair (s_N X) (s_N Y) mx my sx sy ->
  repeated m (s_N X) u v ->
  exact_roots brentq ->
  0 <= tol_mull ->
  s_nel X = rsum (s_N X) (s_val X) - s_charge X ->
  exact_multiple m p D Q X Y (calculate z evmin w0 MAXE brentq mx tol_norm tol_mull tol_im Hartree Bohr scc maxiter X sx u)
    (calculate z' evmin' w0' MAXE brentq my tol_norm tol_mull tol_im Hartree Bohr scc maxiter Y sy v).
Proof. exact system_exact. Qed.
(** C180: structures of several copies.  Cases: ex_wedge, ex_longer *)
Theorem C180_assembled :
  forall (m : nat) (p : nat -> nat -> nat -> cplx) (W : nat -> m3) (v : nat -> v3) (w : nat -> nat -> nat -> option nat) 
    (D : database) (Bohr : R) (g h : structure),
  copies m p W v w D Bohr g h ->
  forall inv inv' : nat -> nat,
  sound D g inv ->
  sound D h inv' ->
  one_table D ->
  forall (erfc : R -> R) (Hartree : R) (gaussian : bool) (gamma_cut : option R) (goal width sepsilon : R) (scc : bool),
  (scc = true -> exists (wc : nat -> nat -> cell -> option cell) (cs cs' : list cell), copied_cells m W v wc gamma_cut g h cs cs') ->
  match assemble erfc Bohr Hartree gaussian gamma_cut goal width sepsilon scc D g with
  | Some X =>
      match assemble erfc Bohr Hartree gaussian gamma_cut goal width sepsilon scc D h with
      | Some Y => unfolds m p (fun c : nat => turned_orbitals D g (W c)) (fun c : nat => m3e (W c)) X Y
      | None => False
      end
  | None => match assemble erfc Bohr Hartree gaussian gamma_cut goal width sepsilon scc D h with
            | Some _ => False
            | None => True
            end
  end.
Proof. exact assembled_copies. Qed.
Theorem C180_structures :
  forall (m : nat) (p : nat -> nat -> nat -> cplx) (W : nat -> m3) (v : nat -> v3) (w : nat -> nat -> nat -> option nat) 
    (D : database) (Bohr : R) (g h : structure) (inv inv' : nat -> nat) (erfc : R -> R) (Hartree : R) (gaussian : bool) 
    (gamma_cut : option R) (goal width sepsilon : R) (scc : bool) (X Y : system) (z z' : InvSpec.lapack) (w0 w0' : nat -> nat -> R)
    (evmin evmin' : (nat -> nat -> cplx) -> R) (MAXE : R) (brentq : (R -> R) -> R -> R -> R -> option R) (mx my : mixer)
    (tol_norm tol_mull tol_im : R) (maxiter : nat) (sx : mst mx) (sy : mst my) (u u' : vec),
  copies m p W v w D Bohr g h ->
  (scc = true -> exists (wc : nat -> nat -> cell -> option cell) (cs cs' : list cell), copied_cells m W v wc gamma_cut g h cs cs') ->
  sound D g inv ->
  sound D h inv' ->
  one_table D ->
  assemble erfc Bohr Hartree gaussian gamma_cut goal width sepsilon scc D g = Some X ->
  assemble erfc Bohr Hartree gaussian gamma_cut goal width sepsilon scc D h = Some Y ->
  reliable z w0 X ->
  reliable z' w0' Y ->
  0 <= tol_norm ->
  scale_free brentq ->
  fresh_pair (s_N X) (s_N Y) mx my sx sy ->
  repeated m (s_N X) u u' ->
  let x := calculate z evmin w0 MAXE brentq mx tol_norm tol_mull tol_im Hartree Bohr scc maxiter X sx u in
  let y := calculate z' evmin' w0' MAXE brentq my tol_norm tol_mull tol_im Hartree Bohr scc maxiter Y sy u' in
  multiple_answer m p (fun c : nat => turned_orbitals D g (W c)) (fun c : nat => m3e (W c)) X Y x y /\
  (exact_roots brentq -> 0 <= tol_mull -> exact_multiple m p (fun c : nat => turned_orbitals D g (W c)) (fun c : nat => m3e (W c)) X Y x y).
Proof. exact structure_multiple. Qed.
(** C181: a wedge is a ring.  Cases: ex_wedge, ex_molecule, ex_ring, ex_wedge_sound, ex_wedge_systems, ex_root *)
Theorem C181_rejected :
  forall (M : nat) (z : nat -> Z) (D : database) (Bohr : R) (g h : structure) (inv inv' : nat -> nat) (erfc : R -> R) 
    (Hartree : R) (gaussian : bool) (gamma_cut : option R) (goal width sepsilon : R) (scc : bool),
  wedge M z g ->
  molecule h ->
  placed M (wedge_turn M) (fun _ : nat => vzero) g h ->
  sound D g inv ->
  sound D h inv' ->
  one_table D ->
  assemble erfc Bohr Hartree gaussian gamma_cut goal width sepsilon scc D g = None <->
  assemble erfc Bohr Hartree gaussian gamma_cut goal width sepsilon scc D h = None.
Proof. exact wedge_systems. Qed.
Theorem C181_ring :
  forall (M : nat) (z : nat -> Z) (D : database) (Bohr : R) (g h : structure) (inv inv' : nat -> nat) (erfc : R -> R) 
    (Hartree : R) (gaussian : bool) (gamma_cut : option R) (goal width sepsilon : R) (scc : bool) (X Y : system) (za zb : InvSpec.lapack)
    (w0 w0' : nat -> nat -> R) (evmin evmin' : (nat -> nat -> cplx) -> R) (MAXE : R) (brentq : (R -> R) -> R -> R -> R -> option R)
    (mx my : mixer) (tol_norm tol_mull tol_im : R) (maxiter : nat) (sx : mst mx) (sy : mst my) (u u' : vec),
  wedge M z g ->
  molecule h ->
  placed M (wedge_turn M) (fun _ : nat => vzero) g h ->
  sound D g inv ->
  sound D h inv' ->
  one_table D ->
  assemble erfc Bohr Hartree gaussian gamma_cut goal width sepsilon scc D g = Some X ->
  assemble erfc Bohr Hartree gaussian gamma_cut goal width sepsilon scc D h = Some Y ->
  reliable za w0 X ->
  reliable zb w0' Y ->
  0 <= tol_norm ->
  scale_free brentq ->
  fresh_pair (s_N X) (s_N Y) mx my sx sy ->
  repeated M (s_N X) u u' ->
  let x := calculate za evmin w0 MAXE brentq mx tol_norm tol_mull tol_im Hartree Bohr scc maxiter X sx u in
  let y := calculate zb evmin' w0' MAXE brentq my tol_norm tol_mull tol_im Hartree Bohr scc maxiter Y sy u' in
  multiple_answer M (wedge_phase M) (fun c : nat => turned_orbitals D g (wedge_turn M c)) (fun c : nat => m3e (wedge_turn M c)) X Y x y /\
  (exact_roots brentq ->
   0 <= tol_mull ->
   exact_multiple M (wedge_phase M) (fun c : nat => turned_orbitals D g (wedge_turn M c)) (fun c : nat => m3e (wedge_turn M c)) X Y x y).
Proof. exact wedge_is_ring. Qed.
(** C182: longer cells of a chain.  Cases: ex_longer, ex_visited, ex_longer_sound, ex_longer_systems, ex_root *)
Theorem C182_rejected :
  forall (m : nat) (z z' : nat -> Z) (beta : R) (a : v3) (kappa kappa' : nat -> R) (D : database) (Bohr : R) (g h : structure)
    (inv inv' : nat -> nat) (erfc : R -> R) (Hartree : R) (gaussian : bool) (gamma_cut : option R) (goal width sepsilon : R) 
    (scc : bool),
  longer m z z' beta a kappa kappa' D Bohr g h ->
  (scc = true -> visited gamma_cut beta a g) ->
  sound D g inv ->
  sound D h inv' ->
  one_table D ->
  assemble erfc Bohr Hartree gaussian gamma_cut goal width sepsilon scc D g = None <->
  assemble erfc Bohr Hartree gaussian gamma_cut goal width sepsilon scc D h = None.
Proof. exact longer_systems. Qed.
Theorem C182_chain :
  forall (m : nat) (z z' : nat -> Z) (beta : R) (a : v3) (kappa kappa' : nat -> R) (D : database) (Bohr : R) (g h : structure)
    (inv inv' : nat -> nat) (erfc : R -> R) (Hartree : R) (gaussian : bool) (gamma_cut : option R) (goal width sepsilon : R) 
    (scc : bool) (X Y : system) (za zb : InvSpec.lapack) (w0 w0' : nat -> nat -> R) (evmin evmin' : (nat -> nat -> cplx) -> R) 
    (MAXE : R) (brentq : (R -> R) -> R -> R -> R -> option R) (mx my : mixer) (tol_norm tol_mull tol_im : R) (maxiter : nat) 
    (sx : mst mx) (sy : mst my) (u u' : vec),
  longer m z z' beta a kappa kappa' D Bohr g h ->
  (scc = true -> visited gamma_cut beta a g) ->
  sound D g inv ->
  sound D h inv' ->
  one_table D ->
  assemble erfc Bohr Hartree gaussian gamma_cut goal width sepsilon scc D g = Some X ->
  assemble erfc Bohr Hartree gaussian gamma_cut goal width sepsilon scc D h = Some Y ->
  reliable za w0 X ->
  reliable zb w0' Y ->
  0 <= tol_norm ->
  scale_free brentq ->
  fresh_pair (s_N X) (s_N Y) mx my sx sy ->
  repeated m (s_N X) u u' ->
  let x := calculate za evmin w0 MAXE brentq mx tol_norm tol_mull tol_im Hartree Bohr scc maxiter X sx u in
  let y := calculate zb evmin' w0' MAXE brentq my tol_norm tol_mull tol_im Hartree Bohr scc maxiter Y sy u' in
  let W := fun c : nat => rotz (INR c * beta) in
  multiple_answer m (chain_phase m kappa) (fun c : nat => turned_orbitals D g (W c)) (fun c : nat => m3e (W c)) X Y x y /\
  (exact_roots brentq ->
   0 <= tol_mull -> exact_multiple m (chain_phase m kappa) (fun c : nat => turned_orbitals D g (W c)) (fun c : nat => m3e (W c)) X Y x y).
Proof. exact longer_is_same. Qed.
Print Assumptions C179_multiple.
Print Assumptions C179_exact.
Print Assumptions C180_assembled.
Print Assumptions C180_structures.
Print Assumptions C181_rejected.
Print Assumptions C181_ring.
Print Assumptions C182_rejected.
Print Assumptions C182_chain.
