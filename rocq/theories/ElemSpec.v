From Coq Require Import Reals ZArith List Arith.
From Verif Require Import Vec GeomModel ElemModel.
Import ListNotations.
Open Scope R_scope.

(** number of basis orbitals of every atom: 1, 4 or 9, with an energy for each *)
Definition well_formed (e : edata) : Prop := (e_no e = 1 \/ e_no e = 4 \/ e_no e = 9)%nat /\ length (e_onsite e) = e_no e.
(** first orbital of atom i: the orbitals of the atoms before it *)
Definition offset (els : list edata) (i : nat) : nat := list_sum (map e_no (firstn i els)).
(** room for electrons outside the s shell *)
Definition room (e : edata) : R := 2 * INR (e_no e - 1).
(** an element that fills its s shell with e_socc electrons and whose remaining valence electrons fit in p and d *)
Definition fillable (e : edata) : Prop := 0 <= e_socc e <= 2 /\ 0 <= e_val e - e_socc e <= room e.
Fixpoint population_sum (els : list edata) (l : list nat) : option R :=
  match l with
  | [] => Some 0
  | m :: l => match free_population els m, population_sum els l with Some a, Some b => Some (a + b) | _, _ => None end
  end.
(** image n of atom j is within the interaction range of atom i *)
Definition interacting (pos : ntuple -> nat -> v3) (hscut : nat -> nat -> R) (i j : nat) (n : ntuple) : Prop :=
  vnorm (vsub (pos n j) (pos n000 i)) <= hscut i j.
