(** Random directions.  box/mix.py *)
From Coq Require Import Reals.
From Verif Require Import GeomModel.
Open Scope R_scope.

(** random_direction() 320-325: the numbers of np.random.random, u then v, are arguments; (phi, theta) *)
Definition random_phi (u : R) : R := u * 2 * PI.
Definition random_theta (v : R) : R := acos (1 - 2 * v).
Definition random_direction (u v : R) : R * R := (random_phi u, random_theta v).
(** random_direction(vector=True) 326-327 *)
Definition random_vector (u v : R) : v3 :=
  let phi := random_phi u in let theta := random_theta v in V3 (sin theta * cos phi) (sin theta * sin phi) (cos theta).
(** spherical_to_cartesian 329-331 *)
Definition spherical_to_cartesian (theta phi r : R) : v3 := V3 (r * sin theta * cos phi) (r * sin theta * sin phi) (r * cos theta).
