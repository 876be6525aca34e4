From Coq Require Import Reals List Bool Arith.
From Verif Require Import Vec GeomModel AtomModel.
Import ListNotations.
Open Scope R_scope.

Definition increasing (N : nat) (x : nat -> R) : Prop := forall i, (S i < N)%nat -> x i < x (S i).
(** polynomial with a double zero at xm *)
Definition cubic (a b xm t : R) : R := a * (xm - t) ^ 2 + b * (xm - t) ^ 3.
(** the finite-difference form of c2 u'' + c1 u' + c0 u at point i *)
Definition residual (dx : R) (c2 c1 c0 u : nat -> R) (i : nat) : R :=
  c2 i * ((u (i + 1)%nat - 2 * u i + u (i - 1)%nat) / dx ^ 2) + c1 i * ((u (i + 1)%nat - u (i - 1)%nat) / (2 * dx)) + c0 i * u i.
(** energy curve of added electrons *)
Definition parabola (a b x : R) : R := a * x + b * x ^ 2.
(** electrons inside grid point i, on the shells between the points *)
Definition inside (dV n0 : nat -> R) (i : nat) : R := rsum i (fun j => n0 j * dV j).
(** volumes of shells: proportional to 4 pi r^2 dr in the middle of each shell, together the sphere *)
Definition shell_volumes (N : nat) (grid dV : nat -> R) : Prop :=
  rsum (N - 1) dV = 4 * PI * grid (N - 1)%nat ^ 3 / 3 /\
  exists k, 0 < k /\ forall i, (i < N - 1)%nat -> dV i = k * (4 * PI * ((grid i + grid (i + 1)%nat) / 2) ^ 2 * (grid (i + 1)%nat - grid i)).
(** electrons between the points i and i+1 when the density is scaled to nel electrons *)
Definition shell_raw (dV dens : nat -> R) (i : nat) : R := (dens i + dens (i + 1)%nat) / 2 * dV i.
Definition shell_charge (N : nat) (dV dens : nat -> R) (nel : R) (i : nat) : R := shell_raw dV dens i * nel / rsum (N - 1) (shell_raw dV dens).
(** Gauss' law for concentric shells *)
Definition shell_potential (N : nat) (grid q : nat -> R) (i : nat) : R :=
  rsum i q / grid i + rsum (N - 1 - i) (fun j => q (i + j)%nat / ((grid (i + j)%nat + grid (i + j + 1)%nat) / 2)).
