From Coq Require Import Reals ZArith String List Bool Arith.
From Verif Require Import GeomModel UtilModel SysModel.
Import ListNotations.
Open Scope R_scope.

(** ** infinite structures: atoms and their periodic images *)
Definition crystal1 (per : v3) (ps : list v3) (p : v3) : Prop := exists q (k : Z), In q ps /\ p = vadd q (vscale (IZR k) per).
Definition crystal2 (c1 c2 : v3) (ps : list v3) (p : v3) : Prop :=
  exists q (k1 k2 : Z), In q ps /\ p = vadd q (vadd (vscale (IZR k1) c1) (vscale (IZR k2) c2)).
(** no atom is listed twice, nor coincides with an image of another atom *)
Definition distinct1 (per : v3) (ps : list v3) : Prop :=
  NoDup ps /\ forall q1 q2 (k : Z), In q1 ps -> In q2 ps -> q1 = vadd q2 (vscale (IZR k) per) -> q1 = q2.
Definition distinct2 (c1 c2 : v3) (ps : list v3) : Prop :=
  NoDup ps /\ forall q1 q2 (k1 k2 : Z), In q1 ps -> In q2 ps -> q1 = vadd q2 (vadd (vscale (IZR k1) c1) (vscale (IZR k2) c2)) -> q1 = q2.
Definition dist (p q : v3) : R := vnorm (vsub p q).
(** the atom at p has exactly k atoms at distance d *)
Definition neighbours (S : v3 -> Prop) (d : R) (p : v3) (k : nat) : Prop :=
  exists l, NoDup l /\ length l = k /\ forall q, In q l <-> S q /\ dist p q = d.
(** no two atoms are closer than d *)
Definition apart (S : v3 -> Prop) (d : R) : Prop := forall p q, S p -> S q -> p <> q -> d <= dist p q.
(** coordinate across a ribbon *)
Definition across (d : dir) (p : v3) : R := match d with DirX => vy p | DirZ => - vx p end.
(** atoms of the two edges of a ribbon of n zigzag rows have two neighbours, the others three *)
Definition zigzag_bonds (d : dir) (Rb : R) (n : nat) (S : v3 -> Prop) : Prop :=
  forall p, S p -> neighbours S Rb p
    (if Req_EM_T (across d p) (Rb / 2) then 2 else if Req_EM_T (across d p) (Rb / 2 * (3 * INR n - 1)) then 2 else 3).
(** an atom of a ribbon of n armchair rows lies in a row and has one neighbour there and one in each row beside it *)
Definition armchair_bonds (d : dir) (Rb : R) (n : nat) (S : v3 -> Prop) : Prop :=
  forall p, S p -> exists i, (i < n)%nat /\ across d p = INR i * (sqrt 3 / 2 * Rb) /\
    neighbours S Rb p (1 + (if (i =? 0)%nat then 0 else 1) + (if (i =? n - 1)%nat then 0 else 1)).

(** ** graphene as a lattice in the plane *)
Definition lat_a1 (Rb : R) : v3 := V3 (sqrt 3 * Rb) 0 0.
Definition lat_a2 (Rb : R) : v3 := V3 (sqrt 3 * Rb / 2) (3 / 2 * Rb) 0.
Definition lat (Rb : R) (p q : Z) : v3 := vadd (vscale (IZR p) (lat_a1 Rb)) (vscale (IZR q) (lat_a2 Rb)).
(** a corner of its Brillouin zone, where the bands cross *)
Definition dirac (Rb : R) : v3 := V3 (4 * PI / (3 * (sqrt 3 * Rb))) 0 0.
Definition hexagon_area (Rb : R) : R := 3 * sqrt 3 / 2 * Rb ^ 2.

(** ** tubes: a honeycomb in the plane wrapped around a cylinder *)
(** two vectors spanning the honeycomb with bonds of length Rb *)
Definition hex_basis (Rb : R) (e1 e2 : v3) : Prop :=
  vz e1 = 0 /\ vz e2 = 0 /\ vdot e1 e1 = 3 * Rb ^ 2 /\ vdot e2 e2 = 3 * Rb ^ 2 /\ vdot e1 e2 = 3 / 2 * Rb ^ 2.
Definition hex_site (e1 e2 o : v3) (P Q : Z) (b : bool) : v3 :=
  vadd o (vadd (vadd (vscale (IZR P) e1) (vscale (IZR Q) e2)) (if b then vscale (1 / 3) (vadd e1 e2) else vzero)).
(** the chiral vector becomes the circumference *)
Definition chiral_vector (e1 e2 : v3) (n m : nat) : v3 := vadd (vscale (INR n) e1) (vscale (INR m) e2).
Definition wrap (C r : v3) : v3 :=
  let phi := 2 * PI * (vdot r C / vdot C C) in
  V3 (vnorm C / (2 * PI) * cos phi) (vnorm C / (2 * PI) * sin phi) (vdot r (V3 (vy C) (- vx C) 0) / vnorm C).
Definition tube_site (e1 e2 o : v3) (n m : nat) (p : v3) : Prop := exists P Q b, p = wrap (chiral_vector e1 e2 n m) (hex_site e1 e2 o P Q b).
(** an arrangement of atoms that is the tube (n,m): the wrapped honeycomb *)
Definition is_tube (Rb : R) (n m : nat) (S : v3 -> Prop) : Prop :=
  exists e1 e2 o, hex_basis Rb e1 e2 /\ vz o = 0 /\ forall p, S p <-> tube_site e1 e2 o n m p.
(** atoms at some sites of the tube, but not at all of them *)
Definition tube_with_holes (Rb : R) (n m : nat) (S : v3 -> Prop) : Prop :=
  exists e1 e2 o, hex_basis Rb e1 e2 /\ vz o = 0 /\ (forall p, S p -> tube_site e1 e2 o n m p) /\ exists p, tube_site e1 e2 o n m p /\ ~ S p.
(** atoms in a helical container: height and angle *)
Definition helix (h ang : R) : atoms := Atoms (fun i j => match i, j with 1%nat, 0%nat => h | 2%nat, 0%nat => ang | _, _ => 0 end) (false, false, true) [] (0, 0).
Definition helical (h ang : R) (ps : list v3) (p : v3) : Prop := exists q (k : Z), In q ps /\ p = transform Chiral (helix h ang) q (0, 0, k)%Z.
