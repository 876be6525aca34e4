From Coq Require Import Reals ZArith List Bool.
From Verif Require Import Vec GeomModel GeomSpec ScaModel SkModel SkSpec Cpx AngModel AngSpec AngProofs AngProofs2 AngProofs3 AngProofs4 AngProofs5.
Import ListNotations.
Open Scope R_scope.

(** C191: axis and angle of a rotation matrix; cases: ex_from_matrix, ex_tat, ex_tat_angles, ex_tat_orbitals *)
Theorem C191_from_matrix :
  forall (m : m3) (l : list eigenpair) (u : v3),
  is_rotation m ->
  eigenpairs_of m l ->
  mv m u <> u ->
  angle_resolved m ->
  exists (angle : R) (t : v3),
    rotation_from_matrix l u m = Ok (angle, t) /\ vnorm t = 1 /\ 0 <= angle < 2 * PI /\ mv m t = t /\ m = rotation_matrix t angle.
Proof. exact from_matrix. Qed.
Theorem C191_rejected :
  forall (m : m3) (l : list eigenpair) (u : v3), Rabs (det m - 1) >= e14 -> rotation_from_matrix l u m = AssertionError.
Proof. exact from_matrix_bad. Qed.
Theorem C191_axis :
  forall d : v3, vdot d d = 1 -> axis_resolved d -> exists th ph : R, axis_angles d = Some (th, ph) /\ direction th ph = d.
Proof. exact direction_of. Qed.
Theorem C191_angles :
  forall (eig : m3 -> list eigenpair) (u : v3) (c : ctype) (a : atoms) (n : op) (th ph an : R),
  angles_defined eig u c a n -> rotation_angles eig u c a n = Angles th ph an -> rotation c a n = rotation_matrix (direction th ph) an.
Proof. exact container_angles. Qed.
Theorem C191_given :
  forall (eig : m3 -> list eigenpair) (u : v3) (c : ctype) (a : atoms) (n : op) (dorb : bool),
  angles_defined eig u c a n ->
  asks_for_angles (rotation c a n) dorb = true -> exists th ph an : R, rotation_angles eig u c a n = Angles th ph an.
Proof. exact asked_given. Qed.
Theorem C191_orbitals :
  forall (eig : m3 -> list eigenpair) (u : v3) (c : ctype) (a : atoms) (dorb : bool) (n : op),
  angles_defined eig u c a n ->
  clear_cut (rotation c a n) ->
  (dorb = true -> eps12 <= Rabs (m3e (rotation c a n) 2 2 + 1)) ->
  exists D : nat -> nat -> R,
    container_transformation eig u c a dorb n = Some D /\
    (forall (b : nat) (x : v3),
     (b < (if dorb then 9 else 4))%nat ->
     orbital b (mv (tr (rotation c a n)) x) = rsum (if dorb then 9%nat else 4%nat) (fun k : nat => orbital k x * D k b)).
Proof. exact container_orbitals. Qed.
Theorem C191_sphere_mode_refuted :
  exists (a : atoms) (n : op),
    rotation Sphere a n =
    {| row1 := {| vx := 1; vy := 0; vz := 0 |}; row2 := {| vx := 0; vy := 0; vz := -1 |}; row3 := {| vx := 0; vy := 1; vz := 0 |} |} /\
    (forall (eig : m3 -> list eigenpair) (u : v3), container_transformation eig u Sphere a true n = None).
Proof. exact sphere_mode. Qed.
Theorem C191_every_refuted :
  exists (a : atoms) (n : op),
    rotation Chiral a n <> eye /\
    (forall (eig : m3 -> list eigenpair) (u : v3) (th ph an : R), rotation_angles eig u Chiral a n <> Angles th ph an).
Proof. exact chiral_matrix. Qed.
Print Assumptions C191_from_matrix.
Print Assumptions C191_rejected.
Print Assumptions C191_axis.
Print Assumptions C191_angles.
Print Assumptions C191_given.
Print Assumptions C191_orbitals.
Print Assumptions C191_sphere_mode_refuted.
Print Assumptions C191_every_refuted.
