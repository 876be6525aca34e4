From Coq Require Import Reals List Bool Arith.
From Verif Require Import Vec GeomModel LrModel.
Open Scope R_scope.

(** energies in ascending order, degenerate states equally occupied *)
Definition ordered (norb : nat) (e f : nat -> R) : Prop :=
  forall i j, (i <= j)%nat -> (j < norb)%nat -> e i <= e j /\ (e i = e j -> f i = f j).
(** <u|S|v> *)
Definition overlap (norb : nat) (S : nat -> nat -> R) (u v : nat -> R) : R := rsum norb (fun a => rsum norb (fun b => u a * S a b * v b)).
Definition symmetric (n : nat) (A : nat -> nat -> R) : Prop := forall a b, (a < n)%nat -> (b < n)%nat -> A a b = A b a.
Definition delta (a b : nat) : R := if (a =? b)%nat then 1 else 0.
Definition orthonormal_states (norb : nat) (S wf : nat -> nat -> R) : Prop :=
  forall k l, (k < norb)%nat -> (l < norb)%nat -> overlap norb S (wf k) (wf l) = delta k l.
Definition positive_semidefinite (n : nat) (A : nat -> nat -> R) : Prop := forall q, 0 <= rsum n (fun i => rsum n (fun j => q i * A i j * q j)).
(** v is an eigenvector of A *)
Definition eigenvector (n : nat) (A : nat -> nat -> R) (w : R) (v : nat -> R) : Prop :=
  (exists k, (k < n)%nat /\ v k <> 0) /\ forall i, (i < n)%nat -> rsum n (fun j => A i j * v j) = w * v i.
(** what eigh returns: eigenvectors in the columns, orthonormal *)
Definition diagonalised (n : nat) (A : nat -> nat -> R) (w : nat -> R) (V : nat -> nat -> R) : Prop :=
  (forall x i, (x < n)%nat -> (i < n)%nat -> rsum n (fun j => A i j * V j x) = w x * V i x) /\
  forall x y, (x < n)%nat -> (y < n)%nat -> rsum n (fun k => V k x * V k y) = delta x y.
(** a rotation or reflection followed by a translation *)
Definition moved (Q : nat -> nat -> R) (t : nat -> R) (r : nat -> nat -> R) (i x : nat) : R := rsum 3 (fun y => Q x y * r i y) + t x.
Definition orthogonal3 (Q : nat -> nat -> R) : Prop := forall y z, (y < 3)%nat -> (z < 3)%nat -> rsum 3 (fun x => Q x y * Q x z) = delta y z.
(** number of allowed excitations among the first n *)
Fixpoint count_allowed (F : nat -> R) (n : nat) : nat :=
  match n with O => O | S n => (count_allowed F n + if Rle_dec (/ 100) (F n) then 1 else 0)%nat end.
(** excitations with positive energy and occupation difference *)
Definition proper (e f : nat -> R) (ph : list (nat * nat)) : Prop := forall i j, In (i, j) ph -> e i < e j /\ f j < f i.
