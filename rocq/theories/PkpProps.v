From Coq Require Import Reals List Bool Arith.
From Verif Require Import GeomModel PkpModel PkpSpec PkpProofs.
Import ListNotations.
Open Scope R_scope.

(** C197: peaks of tabulated curves.  Cases: ex_three (a fit meeting the contract), ex_top (a curve with a peak) *)
Theorem C197_no_error :
  forall (fit2 : R * R * R -> R * R * R -> R * R * R) (N : nat) (x y : nat -> R) (fact h : R),
  exact_fit fit2 -> spaced N x h -> (exists r : list (R * R), get_peak_positions fit2 N x y fact = PkOk r) <-> (2 <= N)%nat.
Proof. exact no_error. Qed.
Theorem C197_found :
  forall (fit2 : R * R * R -> R * R * R -> R * R * R) (N : nat) (x y : nat -> R) (fact h m : R) (r : list (R * R)) (i : nat),
  exact_fit fit2 ->
  spaced N x h ->
  highest N y m ->
  get_peak_positions fit2 N x y fact = PkOk r ->
  top N y i ->
  fact * m < y i -> exists c p : R, In (c, p) r /\ Rabs (c - x i) < h / 2 /\ y i <= p <= y i + (2 * y i - y (i - 1)%nat - y (i + 1)%nat) / 8.
Proof. exact found. Qed.
Theorem C197_nothing_else :
  forall (fit2 : R * R * R -> R * R * R -> R * R * R) (N : nat) (x y : nat -> R) (fact h m : R) (r : list (R * R)) (c p : R),
  exact_fit fit2 ->
  spaced N x h ->
  highest N y m ->
  get_peak_positions fit2 N x y fact = PkOk r ->
  In (c, p) r ->
  fact * m < p /\
  (c = x 0%nat /\ p = y 0%nat /\ y 1%nat < y 0%nat \/
   c = x (N - 1)%nat /\ p = y (N - 1)%nat /\ y (N - 2)%nat < y (N - 1)%nat \/
   (exists i : nat, top N y i /\ Rabs (c - x i) < h / 2 /\ y i <= p <= y i + (2 * y i - y (i - 1)%nat - y (i + 1)%nat) / 8)).
Proof. exact sound. Qed.
Theorem C197_ends :
  forall (fit2 : R * R * R -> R * R * R -> R * R * R) (N : nat) (x y : nat -> R) (fact h m : R) (r : list (R * R)),
  exact_fit fit2 ->
  spaced N x h ->
  highest N y m ->
  get_peak_positions fit2 N x y fact = PkOk r ->
  (y 1%nat < y 0%nat -> fact * m < y 0%nat -> In (x 0%nat, y 0%nat) r) /\
  (y (N - 2)%nat < y (N - 1)%nat -> fact * m < y (N - 1)%nat -> In (x (N - 1)%nat, y (N - 1)%nat) r).
Proof. exact ends. Qed.
Theorem C197_exact :
  forall (fit2 : R * R * R -> R * R * R -> R * R * R) (N : nat) (x y : nat -> R) (fact h m : R) (r : list (R * R)) (i : nat) (A B C : R),
  exact_fit fit2 ->
  spaced N x h ->
  highest N y m ->
  get_peak_positions fit2 N x y fact = PkOk r ->
  top N y i -> (forall j : nat, (i - 1 <= j <= i + 1)%nat -> y j = A - B * (x j - C) ^ 2) -> fact * m < A -> In (C, A) r.
Proof. exact exact_peak. Qed.
Theorem C197_flat_refuted :
  exists (fit2 : R * R * R -> R * R * R -> R * R * R) (N : nat) (x y : nat -> R) (h : R),
    exact_fit fit2 /\ spaced N x h /\ highest N y 1 /\ y 0%nat = 0 /\ y (N - 1)%nat = 0 /\ get_peak_positions fit2 N x y (/ 100) = PkOk [].
Proof. exact flat_refuted. Qed.
Print Assumptions C197_no_error.
Print Assumptions C197_found.
Print Assumptions C197_nothing_else.
Print Assumptions C197_ends.
Print Assumptions C197_exact.
Print Assumptions C197_flat_refuted.
