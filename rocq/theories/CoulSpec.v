From Coq Require Import ZArith List Bool Arith.
From Verif Require Import CoulModel.
Import ListNotations.
Open Scope Z_scope.

(** A direction is either periodic with an odd expansion factor and the common depth K,
    or it has the identity as its only symmetry operation and depth 1. *)
Definition good_direction (K n k : Z) (s : option Z * option Z) : Prop :=
  1 <= n /\ ((s = (None, None) /\ n mod 2 = 1 /\ k = K) \/ (s = (Some 0, Some 0) /\ k = 1)).
(** c is one of the n^K cells around the origin (only the origin in the second case) *)
Definition cell_within (K n c : Z) (s : option Z * option Z) : Prop :=
  match snd s with None => 2 * Z.abs c < n ^ K | Some _ => c = 0 end.
(** how often the cell c occurs in l *)
Definition count (l : list cell) (c : cell) : nat := length (filter (fun x => (t1 x =? t1 c) && (t2 x =? t2 c) && (t3 x =? t3 c)) l).
(** ranges of a periodic direction, and of a direction without symmetry operations *)
Definition inf := (@None Z, @None Z).
Definition one := (Some 0, Some 0).
