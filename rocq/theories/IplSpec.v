From Coq Require Import Reals List Bool Arith.
From Verif Require Import GeomModel.
Import ListNotations.
Open Scope R_scope.

Definition gap (a b : v3) : R := sqrt ((vx a - vx b) ^ 2 + (vy a - vy b) ^ 2 + (vz a - vz b) ^ 2).
(** length of the way from the first point to the k-th *)
Fixpoint way (l : list v3) (k : nat) : R :=
  match k, l with S k, a :: ((b :: _) as l) => gap a b + way l k | _, _ => 0 end.
(** average spacing of N points *)
Definition spacing (points : list v3) (N : nat) : R := way points (length points - 1) / (INR N - 1).
(** each part is longer than half the average spacing *)
Definition parts_long (points : list v3) (N : nat) : Prop := forall k, (k + 1 < length points)%nat -> spacing points N / 2 < gap (nth k points vzero) (nth (k + 1) points vzero).
