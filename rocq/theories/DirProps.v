From Coq Require Import Reals.
From Coquelicot Require Import Coquelicot.
From Verif Require Import GeomModel DirModel DirSpec DirProofs.
Open Scope R_scope.

(** C200: random directions.  Case: ex_draw *)
Theorem C200_ranges :
  forall u v : R, draw u -> draw v -> 0 <= fst (random_direction u v) < 2 * PI /\ 0 <= snd (random_direction u v) < PI.
Proof. exact ranges. Qed.
Theorem C200_unit :
  forall u v : R, unit_vector (random_vector u v).
Proof. exact unit_length. Qed.
Theorem C200_same :
  forall u v : R, random_vector u v = spherical_to_cartesian (snd (random_direction u v)) (fst (random_direction u v)) 1.
Proof. exact same_direction. Qed.
Theorem C200_polar :
  forall u v t A : R, draw v -> 0 <= t <= PI -> cap_area t A -> snd (random_direction u v) <= t <-> v <= A / (4 * PI).
Proof. exact uniform_polar. Qed.
Theorem C200_azimuth :
  forall u v p : R, fst (random_direction u v) <= p <-> u <= p / (2 * PI).
Proof. exact uniform_azimuth. Qed.
Theorem C200_height :
  forall u v : R, draw v -> vz (random_vector u v) = 1 - 2 * v.
Proof. exact height. Qed.
Theorem C200_all :
  forall a : v3, unit_vector a -> -1 < vz a -> exists u v : R, draw u /\ draw v /\ random_vector u v = a.
Proof. exact all_directions. Qed.
Theorem C200_sphere :
  forall theta phi r : R,
  vx (spherical_to_cartesian theta phi r) ^ 2 + vy (spherical_to_cartesian theta phi r) ^ 2 + vz (spherical_to_cartesian theta phi r) ^ 2 =
  r ^ 2.
Proof. exact on_sphere. Qed.
Print Assumptions C200_ranges.
Print Assumptions C200_unit.
Print Assumptions C200_same.
Print Assumptions C200_polar.
Print Assumptions C200_azimuth.
Print Assumptions C200_height.
Print Assumptions C200_all.
Print Assumptions C200_sphere.
