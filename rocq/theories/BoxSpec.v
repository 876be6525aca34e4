(** Specifications for the atoms object of box, reaction paths and the check of energy conservation. *)
From Coq Require Import Reals ZArith List Bool Arith String.
From Coquelicot Require Import Coquelicot.
From Verif Require Import Vec GeomModel BoxModel.
Import ListNotations.
Open Scope R_scope.

(** v translated by a combination of the cell vectors of periodic directions *)
Definition shift (b : batoms) (n : nat -> Z) (a : nat) : v3 := if b_pbc b a then vscale (IZR (n a)) (row (b_cell b) a) else vzero.
Definition image (b : batoms) (n : nat -> Z) (v : v3) : v3 := vadd v (vadd (shift b n 0) (vadd (shift b n 1) (shift b n 2))).
Definition orthogonal (b : batoms) : Prop := forall a c, (a < 3)%nat -> (c < 3)%nat -> a <> c -> coord (row (b_cell b) a) c = 0.
Definition positive_axes (b : batoms) : Prop := forall a, (a < 3)%nat -> b_pbc b a = true -> 0 < axis_length b a.
(** d is the vector v up to cell vectors, and no image of v is shorter *)
Definition shortest_image (b : batoms) (v d : v3) : Prop := (exists n, d = image b n v) /\ forall m, vnorm d <= vnorm (image b m v).
Definition difference (b : batoms) (p q : point) : v3 := vsub (coordinates b q) (coordinates b p).
(** within the cell *)
Definition inside (b : batoms) (r : v3) : Prop := forall a, (a < 3)%nat -> 0 <= coord r a <= axis_length b a /\ (b_pbc b a = true -> coord r a < axis_length b a).
(** the new structure is the old with atoms moved to images within the cell *)
Definition placed (b b' : batoms) : Prop := b_N b' = b_N b /\ b_cell b' = b_cell b /\ b_pbc b' = b_pbc b /\
  forall i, (i < b_N b)%nat -> inside b' (b_pos b' i) /\ exists n, b_pos b' i = image b n (b_pos b i).
(** objects exist *)
Definition exists_obj (w : world) (o : nat) : Prop := (o < List.length (w_objs w))%nat.
(** moment of inertia about an axis u through the origin *)
Definition moment (N : nat) (m : nat -> R) (r : nat -> v3) (u : v3) : R := rsum N (fun k => m k * vnorm (vcross u (r k)) ^ 2).
Definition column (V : nat -> nat -> R) (k : nat) : v3 := V3 (V 0%nat k) (V 1%nat k) (V 2%nat k).
(** contract of eigh for a symmetric matrix T: an orthonormal basis of eigenvectors *)
Definition eigh_contract (eigh : (nat -> nat -> R) -> (nat -> R) * (nat -> nat -> R)) (T : nat -> nat -> R) : Prop :=
  (forall i j, (i < 3)%nat -> (j < 3)%nat -> T i j = T j i) ->
  (forall k l, (k < 3)%nat -> (l < 3)%nat -> vdot (column (snd (eigh T)) k) (column (snd (eigh T)) l) = if (k =? l)%nat then 1 else 0) /\
  (forall k i, (k < 3)%nat -> (i < 3)%nat -> rsum 3 (fun j => T i j * snd (eigh T) j k) = fst (eigh T) k * snd (eigh T) i k).
(** positions as moments_of_inertia takes them *)
Definition seen (rcm : bool) (N : nat) (m : nat -> R) (r : nat -> v3) : nat -> v3 := if rcm then fun k => vsub (r k) (centre N m r) else r.
(** images that are different objects *)
Definition separate (p : path) : Prop := forall i j, (i < h_M p)%nat -> (j < h_M p)%nat -> i <> j -> h_addr p i <> h_addr p j.
(** the path with image k moved by t u *)
Definition path_moved (p : path) (k : nat) (u : vec) (t : R) : nat -> vec := fun i c => if (i =? k)%nat then positions p i c + t * u c else positions p i c.
(** multipliers times the deviations of the lengths of the segments from their mean *)
Definition constraint_energy (n M : nat) (l : vec) (r : nat -> vec) : R :=
  rsum (M - 1) (fun i => l i * (segment n r i - rsum (M - 1) (segment n r) / INR (M - 1))).
Definition all_equal (n : nat) (x : vec) : Prop := forall i j, (i < n)%nat -> (j < n)%nat -> x i = x j.
(** a cubic cell with two atoms; an oblique cell *)
Definition cube : batoms := Batoms 2 (fun i => if (i =? 0)%nat then vzero else V3 1 0 0) (M3 (V3 4 0 0) (V3 0 4 0) (V3 0 0 4)) (fun _ => true).
Definition oblique : batoms := Batoms 2 (fun i => if (i =? 0)%nat then vzero else V3 (-1) 4 0) (M3 (V3 4 0 0) (V3 (-1) 4 0) (V3 0 0 4)) (fun _ => true).
(** a bond of length d between atoms i < j *)
Definition bonded (b : batoms) (rc : nat -> R) (i j : nat) (d : R) : Prop := (i < j < b_N b)%nat /\ distance false b (Index i) (Point (Index j)) true = inr d /\ d < (rc i + rc j) * 1.4.
(** all images but the last are copies of the first object *)
Definition copied (p : path) : Prop := forall i, (i < h_M p - 1)%nat -> h_addr p i = h_addr p 0 /\ h_addr p (h_M p - 1) <> h_addr p i.
(** forces F are minus the gradient of the energy E at v, along every direction u of n coordinates *)
Definition force_of (n : nat) (E : vec -> R) (F : vec -> vec) (v : vec) : Prop :=
  forall u, is_derive (fun t => E (fun c => v c + t * u c)) 0 (- rsum n (fun c => F v c * u c)).
(** distance of the first and the last image *)
Definition span (n : nat) (p : path) : R := sqrt (rsum n (fun c => (positions p (h_M p - 1) c - positions p 0 c) ^ 2)).
