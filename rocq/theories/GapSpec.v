From Coq Require Import Reals List Bool Arith.
From Verif Require Import Vec GeomModel GapModel.
Open Scope R_scope.

(** a state of the calculation *)
Definition state (nk norb : nat) (k a : nat) : Prop := (k < nk)%nat /\ (a < norb)%nat.
(** highest state at or below the Fermi level mu; lowest state above it *)
Definition highest_below (nk norb : nat) (e : nat -> nat -> R) (mu : R) (k a : nat) : Prop :=
  state nk norb k a /\ e k a <= mu /\ forall k' a', state nk norb k' a' -> e k' a' <= mu -> e k' a' <= e k a.
Definition lowest_above (nk norb : nat) (e : nat -> nat -> R) (mu : R) (k a : nat) : Prop :=
  state nk norb k a /\ mu < e k a /\ forall k' a', state nk norb k' a' -> mu < e k' a' -> e k a <= e k' a'.
Definition lowest_not_below (nk norb : nat) (e : nat -> nat -> R) (mu : R) (k a : nat) : Prop :=
  state nk norb k a /\ mu <= e k a /\ forall k' a', state nk norb k' a' -> mu <= e k' a' -> e k a <= e k' a'.
Definition has_below (nk norb : nat) (e : nat -> nat -> R) (mu : R) : Prop := exists k a, state nk norb k a /\ e k a <= mu.
Definition has_above (nk norb : nat) (e : nat -> nat -> R) (mu : R) : Prop := exists k a, state nk norb k a /\ mu < e k a.
(** energies (in eV) of a sensible size *)
Definition sized (nk norb : nat) (e : nat -> nat -> R) (mu : R) : Prop := forall k a, state nk norb k a -> Rabs (e k a - mu) < big.
(** occupations between 0 and 2, lower energies are not less occupied *)
Definition filling (nk norb : nat) (e f : nat -> nat -> R) : Prop :=
  (forall k a, state nk norb k a -> 0 <= f k a <= 2) /\
  forall k a k' a', state nk norb k a -> state nk norb k' a' -> e k a <= e k' a' -> f k' a' <= f k a.
(** sorted energies, occupations decreasing from at most 2 *)
Definition sorted_bands (norb : nat) (e f : nat -> R) : Prop :=
  forall a b, (a <= b)%nat -> (b < norb)%nat -> e a <= e b /\ f b <= f a /\ 0 <= f b /\ f a <= 2.
