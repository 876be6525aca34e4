From Coq Require Import Reals List Bool Arith.
Import ListNotations.
Open Scope R_scope.

(** the distances of the pairs i<j *)
Definition is_distance (N : nat) (dist : nat -> nat -> R) (r : R) : Prop := exists i j, (i < j)%nat /\ (j < N)%nat /\ r = dist i j.
Definition shortest (N : nat) (dist : nat -> nat -> R) (m : R) : Prop := is_distance N dist m /\ forall r, is_distance N dist r -> m <= r.
(** the pairs of all atoms, each once *)
Definition pairs (N : nat) : list (nat * nat) := filter (fun p => (fst p <? snd p)%nat) (list_prod (seq 0 N) (seq 0 N)).
(** the Gaussian-broadened distribution of distances, with a width of 0.7, at the points of the grid of 200 points from 0 to 10 *)
Definition point (k : nat) : R := INR k * (10 / 199).
Definition rdf (N : nat) (dist : nat -> nat -> R) (k : nat) : R :=
  fold_right (fun p s => / (7 / 10 * sqrt (2 * PI)) * exp (- (point k - dist (fst p) (snd p)) ^ 2 / (2 * (7 / 10) ^ 2)) + s) 0 (pairs N).
(** k is the first minimum after the first maximum (or the first point where the distribution vanishes, or the last one considered) *)
Definition first_minimum (f : nat -> R) (last k : nat) : Prop :=
  exists k1, (k1 <= k)%nat /\ (forall j, (j < k1)%nat -> f j <= f (j + 1)%nat) /\ f (k1 + 1)%nat < f k1 /\
    (forall j, (k1 <= j < k)%nat -> f (j + 1)%nat <= f j) /\ (forall j, (k1 <= j < k)%nat -> / 1000000 <= f j) /\ (f k < f (k + 1)%nat \/ f k < / 1000000 \/ k = last).
