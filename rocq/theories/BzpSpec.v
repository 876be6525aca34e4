From Coq Require Import Reals ZArith String List Bool Arith.
From Verif Require Import GeomModel.
Import ListNotations.
Open Scope R_scope.

(** primitive vectors of the face-centred cubic lattice (units of the lattice constant) and of its reciprocal lattice (units of 2 pi over it) *)
Definition direct (i : nat) : v3 := nth i [V3 0 (/ 2) (/ 2); V3 (/ 2) 0 (/ 2); V3 (/ 2) (/ 2) 0] (V3 0 0 0).
Definition recip (i : nat) : v3 := nth i [V3 (-1) 1 1; V3 1 (-1) 1; V3 1 1 (-1)] (V3 0 0 0).
(** the wave vector with scaled coordinates s *)
Definition wave (s : v3) : v3 :=
  V3 (vx s * vx (recip 0) + vy s * vx (recip 1) + vz s * vx (recip 2))
     (vx s * vy (recip 0) + vy s * vy (recip 1) + vz s * vy (recip 2))
     (vx s * vz (recip 0) + vy s * vz (recip 1) + vz s * vz (recip 2)).
(** reciprocal-lattice vectors *)
Definition node (m : Z * Z * Z) : v3 := match m with (a, b, c) => wave (V3 (IZR a) (IZR b) (IZR c)) end.
Definition dist2 (a b : v3) : R := (vx a - vx b) ^ 2 + (vy a - vy b) ^ 2 + (vz a - vz b) ^ 2.
(** the first Brillouin zone: no reciprocal-lattice vector is nearer than the origin *)
Definition first_zone (k : v3) : Prop := forall m, dist2 k (V3 0 0 0) <= dist2 k (node m).
(** the reciprocal-lattice vectors as near as the origin are exactly those listed *)
Definition shared_by (k : v3) (l : list (Z * Z * Z)) : Prop := forall m, dist2 k (node m) = dist2 k (V3 0 0 0) <-> In m l.
(** textbook coordinates *)
Definition textbook (name : string) : option v3 :=
  if String.eqb name "Gamma" then Some (V3 0 0 0) else
  if String.eqb name "X" then Some (V3 1 0 0) else
  if String.eqb name "W" then Some (V3 1 (/ 2) 0) else
  if String.eqb name "K" then Some (V3 (3 * / 4) (3 * / 4) 0) else
  if String.eqb name "L" then Some (V3 (/ 2) (/ 2) (/ 2)) else None.
(** the point a fraction t of the way from a to b *)
Definition between (a b : v3) (t : R) : v3 := V3 ((1 - t) * vx a + t * vx b) ((1 - t) * vy a + t * vy b) ((1 - t) * vz a + t * vz b).
(** the stations of the path *)
Definition stations : list string := ["Gamma"; "X"; "W"; "K"; "Gamma"; "L"; "W"]%string.
(** reciprocal-lattice vectors as near to a symmetry point as the origin: X and L are centres of faces, K of an edge, W a corner *)
Definition sharing (name : string) : list (Z * Z * Z) :=
  if String.eqb name "X" then [(0, 0, 0); (0, 1, 1)]%Z else
  if String.eqb name "W" then [(0, 0, 0); (0, 1, 1); (1, 1, 1); (0, 0, 1)]%Z else
  if String.eqb name "K" then [(0, 0, 0); (1, 1, 1); (0, 0, 1)]%Z else
  if String.eqb name "L" then [(0, 0, 0); (1, 1, 1)]%Z else [(0, 0, 0)]%Z.
(** a point of one of the sections, whose ends are given one after the other *)
Definition on_section (pts : list v3) (k : v3) : Prop :=
  exists i p q t, nth_error pts (2 * i) = Some p /\ nth_error pts (2 * i + 1) = Some q /\ 0 <= t <= 1 /\ k = between p q t.
