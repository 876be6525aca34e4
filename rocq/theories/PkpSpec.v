From Coq Require Import Reals List Bool Arith.
Import ListNotations.
Open Scope R_scope.

(** three equally spaced points with the lowest in the middle are fitted exactly (three parameters) *)
Definition exact_fit (fit2 : R * R * R -> R * R * R -> R * R * R) : Prop :=
  forall x h y0 y1 y2 a b c, 0 < h -> y1 < y0 -> y1 < y2 -> fit2 (x - h, x, x + h) (y0, y1, y2) = (a, b, c) ->
  a + / 2 * b * (x - h - c) ^ 2 = y0 /\ a + / 2 * b * (x - c) ^ 2 = y1 /\ a + / 2 * b * (x + h - c) ^ 2 = y2.
Definition spaced (N : nat) (x : nat -> R) (h : R) : Prop := 0 < h /\ forall i, (i + 1 < N)%nat -> x (i + 1)%nat = x i + h.
(** a point higher than both neighbours *)
Definition top (N : nat) (y : nat -> R) (i : nat) : Prop := (1 <= i)%nat /\ (i + 1 < N)%nat /\ y (i - 1)%nat < y i /\ y (i + 1)%nat < y i.
Definition highest (N : nat) (y : nat -> R) (m : R) : Prop := (exists i, (i < N)%nat /\ y i = m) /\ forall i, (i < N)%nat -> y i <= m.
