(** What rotations and symmetry operations should be. *)
From Coq Require Import Reals ZArith List Bool.
From Verif Require Import GeomModel.
Import ListNotations.
Open Scope R_scope.

(** a proper rotation matrix: its transpose is its inverse, and it keeps orientation *)
Definition is_rotation (m : m3) : Prop := mm (tr m) m = eye /\ mm m (tr m) = eye /\ det m = 1.
(** a rotation or a reflection *)
Definition is_orthogonal (m : m3) : Prop := mm (tr m) m = eye.

Definition dist (a b : v3) : R := vnorm (vsub a b).

(** [f] preserves distances *)
Definition rigid (f : v3 -> v3) : Prop := forall r s, dist (f r) (f s) = dist r s.

Definition op_add (n m : op) : op := ((o1 n + o1 m, o2 n + o2 m), o3 n + o3 m)%Z.

(** containers whose operations simply add *)
Definition additive (c : ctype) : Prop :=
  match c with
  | Bravais | Wedge | Chiral | DoubleChiral | ChiralWedge | WedgeYAxis | ChiralGeneral => True
  | Sphere | Slab | TwistAndTurn => False
  end.

(** [t] is the polar angle of (x,y) in [0,2 pi) *)
Definition polar (x y t : R) : Prop :=
  0 <= t < 2 * PI /\ x = sqrt (x^2 + y^2) * cos t /\ y = sqrt (x^2 + y^2) * sin t.

(** Sphere operations are rotations about an axis that exists *)
Definition sphere_defined (a : atoms) (n : op) : Prop :=
  if (s_mode a =? 3)%Z then s_n1 a <> vzero /\ s_n2 a <> vzero
  else vadd (vscale (s_angle1 a * IZR (o1 n)) (s_n1 a)) (vscale (s_angle2 a * IZR (o2 n)) (s_n2 a)) <> vzero.

(** operations that must be rigid motions *)
Definition rigid_container (c : ctype) (a : atoms) (n : op) : Prop :=
  match c with
  | TwistAndTurn => False
  | Sphere => sphere_defined a n
  | Slab => (o3 n = 0 \/ o3 n = 1)%Z
  | _ => True
  end.

(** cylindrical coordinates *)
Definition cyl (rho phi z : R) : v3 := V3 (rho * cos phi) (rho * sin phi) z.

(** inside the torus: distance to the centre line smaller than its radius *)
Definition in_torus (a : atoms) (r : v3) : Prop :=
  exists rho phi, r = cyl rho phi (vz r) /\ 0 < rho /\ 0 < t_R a /\ (rho - t_R a) ^ 2 + vz r ^ 2 < t_R a ^ 2.

(** [k] operations fit into a range *)
Definition range_ok (r : range) (k : Z) : Prop :=
  match r with Full => True | Fin lo hi => (k <= hi - lo + 1)%Z end.

(** a coordinate that is zero or not tiny (1e-16) *)
Definition resolved (u : R) : Prop := u = 0 \/ e16 < Rabs u.
