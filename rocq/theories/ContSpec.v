(** Histories of a hotbit.Atoms object through its public interface, and what it means for
    two of them to have the same symmetry. *)
From Coq Require Import Reals ZArith List Bool.
From Verif Require Import GeomModel GeomSpec ContModel.
Import ListNotations.
Open Scope R_scope.

(** one change to atoms with container [c] *)
Inductive step : ctype -> atoms -> atoms -> Prop :=
| s_pos c a p : step c a (with_pos a p)
| s_wedge a g h ph pz sc : step Wedge a (state (wedge_set a g h ph pz sc))
| s_chiral a g h sc : step Chiral a (state (chiral_set a g h sc))
| s_double a g h x sc : step DoubleChiral a (state (doublechiral_set a g h x sc))
(** parameters of the other containers are stored in cell entries other than [0,0] *)
| s_par c a i j v : In c [Sphere; ChiralWedge; WedgeYAxis; TwistAndTurn; ChiralGeneral] ->
    (i, j) <> (0, 0)%nat -> step c a (setcell a i j v)
| s_sphere a : step Sphere a (with_pbc a (true, true, false))
| s_wedgey a b : step WedgeYAxis a (with_pbc a (true, b, false))
(** a plain lattice: set_cell and set_pbc *)
| s_bravais a cl p : step Bravais a (with_pbc (with_cell a cl) p)
(** a slab: set_cell gives the lattice vectors *)
| s_slab a cl : step Slab a (with_cell a cl).

(** everything reachable from Atoms(...,container=c) *)
Inductive reachable (c : ctype) : atoms -> Prop :=
| r_make a : reachable c (make c a)
| r_step a b : reachable c a -> step c a b -> reachable c b.

(** same unit cell content, same images, same rotations, same allowed operations *)
Definition same_system (c : ctype) (a b : atoms) : Prop :=
  pos a = pos b /\ pbc a = pbc b /\
  (forall r n, transform c a r n = transform c b r n) /\
  (forall n, rotation c a n = rotation c b n) /\ ranges c a = ranges c b.

(** the height and angle of Chiral and DoubleChiral *)
Definition par_height (c : ctype) (a : atoms) : R :=
  match c with Chiral => c_height a | DoubleChiral => d_height a | Wedge => w_height a | _ => 0 end.
Definition par_angle (c : ctype) (a : atoms) : R :=
  match c with Chiral => c_angle a | DoubleChiral => d_angle a | Wedge => w_angle a | _ => 0 end.

(** x and y are exactly what phival sees *)
Definition clear (r : v3) : Prop := resolved (vx r) /\ resolved (vy r).
(** the polar angle in (-pi,pi] *)
Definition azimuth (r : v3) (t : R) : Prop :=
  - PI < t <= PI /\ vx r = sqrt (vx r ^ 2 + vy r ^ 2) * cos t /\ vy r = sqrt (vx r ^ 2 + vy r ^ 2) * sin t.

(** parameters that the set() of the container accepts *)
Definition valid_source (c : ctype) (src : atoms) : Prop :=
  match c with
  | Chiral => True
  | DoubleChiral => Rabs (IZR (pyround (2 * d_x src)) - 2 * d_x src) < e15
  | Wedge => e6 <= w_angle src <= PI /\
      (w_physical src = true -> Rabs (IZR (pyround (2 * PI / w_angle src)) - 2 * PI / w_angle src) <= e12)
  | _ => False
  end.

Definition opt_or (o : option R) (d : R) := match o with Some v => v | None => d end.
