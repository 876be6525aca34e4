From Coq Require Import Reals.
From Coquelicot Require Import Coquelicot.
From Verif Require Import GeomModel.
Open Scope R_scope.

(** numbers of np.random.random *)
Definition draw (u : R) : Prop := 0 <= u < 1.
Definition unit_vector (a : v3) : Prop := vx a ^ 2 + vy a ^ 2 + vz a ^ 2 = 1.
(** A is the area of the part of the unit sphere within the angle t of the z axis *)
Definition cap_area (t A : R) : Prop := is_RInt (fun s => 2 * PI * sin s) 0 t A.
