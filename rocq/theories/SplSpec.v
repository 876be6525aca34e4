From Coq Require Import Reals Arith.
From Verif Require Import Vec SplModel.
Open Scope R_scope.

(** grid points in increasing order *)
Definition increasing (n : nat) (x : nat -> R) : Prop := forall i, (S i < n)%nat -> x i < x (S i).
(** a linear grid with spacing h *)
Definition linear (n : nat) (x : nat -> R) (h : R) : Prop := 0 < h /\ forall i, (i < n)%nat -> x i = x 0%nat + INR i * h.
(** the equations of the natural cubic spline through (x,y): second derivatives m with continuous slope *)
Definition natural_spline (n : nat) (x y m : nat -> R) : Prop :=
  m 0%nat = 0 /\ m (n - 1)%nat = 0 /\
  forall i, (0 < i)%nat -> (S i < n)%nat ->
    (x i - x (i - 1)%nat) / 6 * m (i - 1)%nat + (x (S i) - x (i - 1)%nat) / 3 * m i + (x (S i) - x i) / 6 * m (S i) =
    (y (S i) - y i) / (x (S i) - x i) - (y i - y (i - 1)%nat) / (x i - x (i - 1)%nat).

(** the grid described by the docstring 190-192 *)
Definition described (g : gridkind) (n : nat) (x : nat -> R) : Prop :=
  x 0%nat < x (n - 1)%nat /\
  match g with
  | Linear => forall i, (i < n)%nat -> x i = x 0%nat + INR i / INR (n - 1) * (x (n - 1)%nat - x 0%nat)
  | Power p => 0 < p /\ forall i, (i < n)%nat -> x i = x 0%nat + ppow (INR i / INR (n - 1)) p * (x (n - 1)%nat - x 0%nat)
  end.
Definition value (o : option R) : R := match o with Some r => r | None => 0 end.
(** a function of three variables that is linear in each *)
Definition trilin (c : nat -> R) (x y z : R) : R :=
  c 0%nat + c 1%nat * x + c 2%nat * y + c 3%nat * z + c 4%nat * x * y + c 5%nat * y * z + c 6%nat * x * z + c 7%nat * x * y * z.
