(** Rigid motions of a whole structure, its total force and its total torque. *)
From Coq Require Import Reals ZArith List Bool Arith.
From Verif Require Import Vec GeomModel CoulModel CoulSpec PairSpec SkModel Cpx RhoModel GamModel GamSpec InvModel InvSpec FrcSpec.
Import ListNotations.
Open Scope R_scope.

(** the velocity of the point x when everything moves with velocity w and turns about the axis om through the origin *)
Definition rigid_velocity (w om x : v3) : v3 := vadd w (vcross om x).
(** the operation x |-> O x + t takes this motion to itself: the images of the atoms move along *)
Definition moves_along (w om : v3) (O : m3) (t : v3) : Prop :=
  forall x, mv O (rigid_velocity w om x) = rigid_velocity w om (vadd (mv O x) t).
(** so do all images and all cells of a structure *)
Record symmetric_motion (w om : v3) (g : structure) : Prop := {
  y_images : forall n, (n < g_nimg g)%nat -> moves_along w om (g_O g n) (g_t g n);
  y_cells : forall k cs c, scan k (g_ranges g) = Some cs -> In c cs -> moves_along w om (g_rot g c) (g_tr0 g c) }.
(** the cells that are visited are rigid motions closed under inversion *)
Definition closed_cells (g : structure) : Prop := forall k cs, scan k (g_ranges g) = Some cs ->
  exists tr0 rot inv, (forall c, In c cs -> tr0 c = g_tr0 g c /\ rot c = g_rot g c) /\ closed_images cs tr0 rot inv.
(** the force on atom I *)
Definition force_on (r : result) (I : nat) : v3 := V3 (r_force r 0 I) (r_force r 1 I) (r_force r 2 I).
Definition vsum (n : nat) (f : nat -> v3) : v3 := V3 (rsum n (fun i => vx (f i))) (rsum n (fun i => vy (f i))) (rsum n (fun i => vz (f i))).
Definition net_force (g : structure) (r : result) : v3 := vsum (g_N g) (force_on r).
Definition net_torque (g : structure) (r : result) : v3 := vsum (g_N g) (fun I => vcross (g_r g I) (force_on r I)).
(** a periodic structure: the images are translated copies, the cells those of the lattice a1, a2, a3 *)
Record translated (a1 a2 a3 : v3) (g : structure) : Prop := {
  tl_O : forall n, (n < g_nimg g)%nat -> g_O g n = eye; tl_rot : forall c, g_rot g c = eye; tl_tr0 : forall c, g_tr0 g c = lattice a1 a2 a3 c; tl_ranges : bravais_ranges (g_ranges g) }.
