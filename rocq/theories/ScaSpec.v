(** Coordinates in which the scaling of bent and twisted structures is stated. *)
From Coq Require Import Reals ZArith List Bool.
From Verif Require Import GeomModel GeomSpec ContModel ScaModel.
Open Scope R_scope.

(** z, x, y in the places of x, y, z: a wedge about y seen as a wedge about z *)
Definition cycle (r : v3) : v3 := V3 (vz r) (vx r) (vy r).

(** [r] lies inside the torus at the azimuth [phi] in (-pi,pi] and the distance [rho] from the axis *)
Definition at_torus (a : atoms) (r : v3) (rho phi : R) : Prop :=
  r = cyl rho phi (vz r) /\ 0 < rho /\ 0 < t_R a /\ (rho - t_R a) ^ 2 + vz r ^ 2 < t_R a ^ 2 /\ - PI < phi <= PI.

(** a parameter that set() stores or leaves *)
Definition stored (given : option R) (before after : R) : Prop :=
  after = match given with Some v => v | None => before end.
