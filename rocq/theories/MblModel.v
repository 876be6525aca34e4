(** Mean bond length and number of bonds of a molecule.  box/atoms.py *)
From Coq Require Import Reals List Bool Arith.
From Verif Require Import GeomModel DosModel.
Import ListNotations.
Open Scope R_scope.

Section Bonds.
(** distance 162-169 is an argument (BoxModel.distance, C164) *)
Variables (N : nat) (dist : nat -> nat -> R).
(** pair_distribution_list 326-334 *)
Definition pair_distribution_list : list R := flat_map (fun i => map (dist i) (seq (i + 1) (N - (i + 1)))) (seq 0 N).
(** pair_distribution_function 313-324 with its default arguments: linspace(0,10,200); the distances are not sorted, they are summed over *)
Definition grd (i : nat) : R := INR i * (10 / 199).
Definition pdf (i : nat) : R := fold_left (fun s x => s + gauss_fct (grd i) x (7 / 10)) pair_distribution_list 0.
Definition eps : R := / 1000000.
(** loop of mean_bond_length 290-296: index of the cutoff, None when the loop ends *)
Fixpoint mean_cut (fuel i : nat) (max : bool) : option nat :=
  match fuel with
  | O => None
  | S fuel =>
    let max := max || ltb (pdf (i + 1)) (pdf i) in
    if max && (ltb (pdf i) (pdf (i + 1)) || ltb (pdf i) eps || (i =? 197)%nat) then Some i else mean_cut fuel (i + 1) max
  end.
(** MNan: 0.0/0 of numpy *)
Inductive mean := MNone | MNan | MValue (r : R).
(** mean_bond_length 282-296 *)
Definition within (rcut : R) : list R := filter (fun r => leb r rcut) pair_distribution_list.
Definition mean_bond_length : mean :=
  if (N =? 2)%nat then MValue (dist 0%nat 1%nat) else
  match mean_cut 199 0 false with
  | None => MNone
  | Some i =>
    let l := within (grd i) in
    match l with [] => MNan | _ => MValue (fold_left Rplus l 0 / INR (length l)) end
  end.
(** loop of number_of_bonds 305-308: the last index when it is not left *)
Fixpoint number_cut (fuel i : nat) (max : bool) : nat :=
  match fuel with
  | O => (i - 1)%nat
  | S fuel =>
    let max := max || ltb (pdf (i + 1)) (pdf i) in
    if max && (ltb (pdf i) (pdf (i + 1)) || ltb (pdf i) eps) then i else number_cut fuel (i + 1) max
  end.
(** number_of_bonds 298-311 *)
Definition number_of_bonds : nat := length (within (grd (Nat.min (number_cut 199 0 false) 200))).
End Bonds.
