From Coq Require Import Reals ZArith List Bool Arith.
From Verif Require Import Vec GeomModel GeomSpec OccModel GridModel.
Import ListNotations.
Open Scope R_scope.

(** value at grid point g of an orbital array of (2m+1)^3 points centred at grid point c; zero outside the array *)
Definition centred (m c : idx3) (pwf : idx3 -> R) (g : idx3) : R :=
  let '(m1, m2, m3) := m in let '(c1, c2, c3) := c in let '(g1, g2, g3) := g in
  if ((Z.abs (g1 - c1) <=? m1) && (Z.abs (g2 - c2) <=? m2) && (Z.abs (g3 - c3) <=? m3))%Z
  then pwf (g1 - c1 + m1, g2 - c2 + m2, g3 - c3 + m3)%Z else 0.
Definition odd3 (m : idx3) : idx3 := let '(m1, m2, m3) := m in (2 * m1 + 1, 2 * m2 + 1, 2 * m3 + 1)%Z.
Definition on_grid (n g : idx3) : Prop := let '(n1, n2, n3) := n in let '(g1, g2, g3) := g in (0 <= g1 < n1 /\ 0 <= g2 < n2 /\ 0 <= g3 < n3)%Z.
(** an image is nowhere further than the cutoff outside the cell *)
Definition near_cell (L : v3) (cutoff : R) (r : v3) : Prop :=
  - cutoff <= vx r <= vx L + cutoff /\ - cutoff <= vy r <= vy L + cutoff /\ - cutoff <= vz r <= vz L + cutoff.
(** c is the grid point next to position r *)
Definition next_to (dr : R) (r : R) (c : Z) : Prop := Rabs (IZR c * dr - r) <= dr / 2.
Definition next_to3 (dr r : v3) (c : idx3) : Prop :=
  let '(c1, c2, c3) := c in next_to (vx dr) (vx r) c1 /\ next_to (vy dr) (vy r) c2 /\ next_to (vz dr) (vz r) c3.
(** the images near the cell, each moved to the grid point next to it *)
Inductive placed (L dr : v3) (cutoff : R) : list (v3 * (R * R)) -> list (idx3 * (R * R)) -> Prop :=
| P_nil : placed L dr cutoff [] []
| P_far r ph l l' : ~ near_cell L cutoff r -> placed L dr cutoff l l' -> placed L dr cutoff ((r, ph) :: l) l'
| P_near r ph l l' c : near_cell L cutoff r -> next_to3 dr r c -> placed L dr cutoff l l' -> placed L dr cutoff ((r, ph) :: l) ((c, ph) :: l').
(** real and imaginary part of the sum over the images of phase times orbital *)
Fixpoint bloch (m : idx3) (pwf : idx3 -> R) (images : list (idx3 * (R * R))) (g : idx3) : R * R :=
  match images with
  | [] => (0, 0)
  | (c, ph) :: l => (fst ph * centred m c pwf g + fst (bloch m pwf l g), snd ph * centred m c pwf g + snd (bloch m pwf l g))
  end.
(** the density at a point: sum of weight times occupation times density of the state *)
Fixpoint ksum (a : nat) (f : list R) (wk : R) (d : nat -> R) : R :=
  match f with [] => 0 | fa :: f => wk * fa * d a + ksum (S a) f wk d end.
Fixpoint true_density (k : nat) (l : list (R * list R)) (d : nat -> nat -> R) : R :=
  match l with [] => 0 | (wk, f) :: l => ksum 0 f wk (d k) + true_density (S k) l d end.
(** filled states first, then empty ones: every occupation is F or 0 *)
Definition filled (F : R) (f : list R) : Prop := exists p q, f = repeat F p ++ repeat 0 q.
(** real spherical harmonics s, px, py, pz, dxy, dyz, dzx, dx2-y2, d3z2-r2 in Cartesian form *)
Definition harmonic (r : v3) (wf : nat) : R :=
  let x := vx r / vnorm r in let y := vy r / vnorm r in let z := vz r / vnorm r in
  match wf with
  | 0%nat => sqrt (1 / (4 * PI))
  | 1%nat => sqrt (3 / (4 * PI)) * x
  | 2%nat => sqrt (3 / (4 * PI)) * y
  | 3%nat => sqrt (3 / (4 * PI)) * z
  | 4%nat => sqrt (15 / (4 * PI)) * (x * y)
  | 5%nat => sqrt (15 / (4 * PI)) * (y * z)
  | 6%nat => sqrt (15 / (4 * PI)) * (z * x)
  | 7%nat => / 2 * sqrt (15 / (4 * PI)) * (x ^ 2 - y ^ 2)
  | _ => / 2 * sqrt (5 / (4 * PI)) * (3 * z ^ 2 - 1)
  end.
Definition nonneg3 (m : idx3) : Prop := let '(m1, m2, m3) := m in (0 <= m1 /\ 0 <= m2 /\ 0 <= m3)%Z.
Definition positive3 (dr : v3) : Prop := 0 < vx dr /\ 0 < vy dr /\ 0 < vz dr.
