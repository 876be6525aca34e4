From Coq Require Import Reals List.
From Verif Require Import Vec OccModel.
Open Scope R_scope.

(** what scipy documents: a root search needs a sign change, and answers inside the interval *)
Definition brentq_contract (brentq : (R -> R) -> R -> R -> R -> option R) : Prop :=
  forall f a b t, a <= b ->
    (0 < f a * f b -> brentq f a b t = None) /\
    (f a * f b <= 0 -> exists x, brentq f a b t = Some x /\ a <= x <= b).

(** weights of k-points *)
Definition weights (nk : nat) (wk : nat -> R) : Prop :=
  (forall k, (k < nk)%nat -> 0 < wk k) /\ rsum nk wk = 1.
