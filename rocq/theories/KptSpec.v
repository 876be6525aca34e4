From Coq Require Import Reals ZArith List Bool.
From Verif Require Import GeomModel.
Import ListNotations.
Open Scope R_scope.

(** The full mesh, before any reduction: n equally spaced points of (-PI,PI), symmetric about
    zero, in directions with infinitely many operations; the n multiples of 2PI/n in [0,2PI) in
    directions with finitely many. *)
Definition mesh_coordinate (m : option Z) (n : Z) (j : nat) : R :=
  match m with
  | None => (2 * INR j + 1 - IZR n) * PI / IZR n
  | Some _ => 2 * PI * INR j / IZR n
  end.

(** An operation i whose M-th power is the translation n (a double chiral tube) shifts
    component i by n.k/M. *)
Definition mesh_shift (m : option Z) (eq : option v3) (k : v3) : R :=
  match eq, m with
  | Some n, Some m => vdot n k / IZR m
  | _, _ => 0
  end.

Section Mesh.
Variable M : nat -> option Z.
Variable table : nat -> option v3.
Variables n1 n2 n3 : Z.
Definition mesh_point (ind : nat * nat * nat) : v3 :=
  let '(a, b, c) := ind in
  let k := V3 (mesh_coordinate (M 0%nat) n1 a) (mesh_coordinate (M 1%nat) n2 b) (mesh_coordinate (M 2%nat) n3 c) in
  V3 (vx k + mesh_shift (M 0%nat) (table 0%nat) k)
     (vy k + mesh_shift (M 1%nat) (table 1%nat) k)
     (vz k + mesh_shift (M 2%nat) (table 2%nat) k).
Definition in_mesh (ind : nat * nat * nat) : Prop :=
  let '(a, b, c) := ind in (Z.of_nat a < n1 /\ Z.of_nat b < n2 /\ Z.of_nat c < n3)%Z.
(** p is a point of the full mesh *)
Definition on_mesh (p : v3) : Prop := exists ind, in_mesh ind /\ p = mesh_point ind.
End Mesh.

Definition vneg (k : v3) : v3 := V3 (- vx k) (- vy k) (- vz k).
Fixpoint lsum {A} (f : A -> R) (l : list A) : R :=
  match l with nil => 0 | x :: l' => f x + lsum f l' end.
