From Coq Require Import Reals ZArith List Bool Arith.
From Coquelicot Require Import Coquelicot.
From Verif Require Import GeomModel AidModel.
Import ListNotations.
Open Scope R_scope.

(** the energy as a function of one coordinate *)
Definition along_axis (E : geom -> R) (p : geom) (i c : nat) (t : R) : R := E (put p i c t).
(** central difference of a function *)
Definition central (f : R -> R) (x h : R) : R := (f (x + h) - f (x - h)) / (2 * h).
(** f has derivatives f1, f2, f3 on an interval *)
Definition smooth3 (f f1 f2 f3 : R -> R) (a b : R) : Prop :=
  forall t, a <= t <= b -> is_derive f t (f1 t) /\ is_derive f1 t (f2 t) /\ is_derive f2 t (f3 t).
(** space strained by e in component i,j: vector v goes to v (1 + e E_ij) *)
Definition strained (i j : nat) (e : R) (v : nat -> R) : nat -> R := fun k => v k + (if (k =? j)%nat then e * v i else 0).
(** the same for components 0, 1, 2 *)
Definition same3 (a b : nat -> nat -> R) : Prop := forall i c, (c < 3)%nat -> a i c = b i c.
Definition same33 (a b : nat -> nat -> R) : Prop := forall i c, (i < 3)%nat -> (c < 3)%nat -> a i c = b i c.
(** energies depend on nothing but the components 0, 1, 2 *)
Definition proper (E : mat -> geom -> R) : Prop := forall c c' p p', same33 c c' -> same3 p p' -> E c p = E c' p'.
Definition strain_energy (E : mat -> geom -> R) (c p : geom) (i j : nat) (e : R) : R := E (fun k => strained i j e (c k)) (fun k => strained i j e (p k)).

(** orthorhombic cell *)
Definition orthorhombic (c : mat) : Prop := forall i j, (i < 3)%nat -> (j < 3)%nat -> i <> j -> c i j = 0.
(** a wedge with angle and height *)
Definition wedge (angle height : R) (pbcz : bool) : atoms := Atoms (fun i j => match i, j with 1%nat, 0%nat => height | 2%nat, 0%nat => angle | _, _ => 0 end) (true, false, pbcz) [] (0, 0).
(** an image of a point of a structure periodic in y and z *)
Definition shifted (Ly Lz : R) (p : v3) (l k : Z) : v3 := vadd p (V3 0 (IZR l * Ly) (IZR k * Lz)).
(** what the documentation of setup_bending says: lie down, rotate about y, move by the radius, bend *)
Definition bent (angle radius Lz rotation : R) (p : v3) : v3 :=
  let q := rotate_y rotation (lie_down p) in
  V3 ((vx q + radius) * cos (vy q * angle / Lz)) ((vx q + radius) * sin (vy q * angle / Lz)) (vz q).

(** grid data as a function along z at x, y *)
Definition good (g : grid) : Prop := (2 <= g_nx g)%nat /\ (2 <= g_ny g)%nat /\ (2 <= g_nz g)%nat /\ 0 < vx (g_axes g) /\ 0 < vy (g_axes g) /\ 0 < vz (g_axes g).
Definition in_box (g : grid) (x y : R) : Prop := 0 <= x <= vx (g_axes g) /\ 0 <= y <= vy (g_axes g).
(** distance seen from above *)
Definition in_plane (a b : v3) : R := sqrt ((vx a - vx b) ^ 2 + (vy a - vy b) ^ 2).
(** h is, to half the tolerance, a height where the data is the threshold; above it the data stays below the threshold if it does so
    at the top of the box *)
Definition contour (g : grid) (thr x y h : R) : Prop :=
  exists z, 0 <= z <= vz (g_axes g) /\ Rabs (h - z) <= ztol / 2 /\ g_call g x y z = Some thr /\
    (forall w, g_call g x y (vz (g_axes g)) = Some w -> w <= thr -> forall z' w', z <= z' <= vz (g_axes g) -> g_call g x y z' = Some w' -> w' <= thr).
(** with the data below the threshold at the top: the threshold is nowhere reached at grid planes *)
Definition no_contour (g : grid) (thr x y : R) : Prop :=
  forall k w w', (S k < g_nz g)%nat -> g_call g x y (g_z g k) = Some w -> g_call g x y (g_z g (S k)) = Some w' -> ~ (w' <= thr <= w).

(** trapezoidal integral of f over the grid up to point i *)
Fixpoint trapezoid (f : R -> R) (x : nat -> R) (i : nat) : R :=
  match i with O => 0 | S j => trapezoid f x j + (x (S j) - x j) * (f (x j) + f (x (S j))) / 2 end.
(** scipy.optimize.brentq for continuous functions with change of sign *)
Definition brentq_contract (brentq : (R -> R) -> R -> R -> R) : Prop :=
  forall g a b, a < b -> (forall K, (forall u v, a <= u <= b -> a <= v <= b -> Rabs (g u - g v) <= K * Rabs (u - v)) -> g a <= 0 <= g b ->
    a <= brentq g a b <= b /\ g (brentq g a b) = 0).
