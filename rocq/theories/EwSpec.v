From Coq Require Import Reals ZArith List Bool Arith.
From Verif Require Import Vec GeomModel EwModel.
Import ListNotations.
Open Scope R_scope.

(** a plane wave has the periodicity of the lattice when its phase changes by multiples of 2 pi along the cell vectors *)
Definition periodic_wave (cell : m3) (g : v3) : Prop :=
  exists a b c : Z, vdot g (row1 cell) = 2 * PI * IZR a /\ vdot g (row2 cell) = 2 * PI * IZR b /\ vdot g (row3 cell) = 2 * PI * IZR c.
Definition symmetric (m : m3) : Prop := tr m = m.
Definition orthogonal_cell (m : m3) : Prop := vdot (row1 m) (row2 m) = 0 /\ vdot (row1 m) (row3 m) = 0 /\ vdot (row2 m) (row3 m) = 0.
(** the lattice translation with the given indices, and the wave with the given numbers of periods along the cell vectors *)
Definition translation (cell : m3) (t : Z * Z * Z) : v3 :=
  vadd (vscale (IZR (fst (fst t))) (row1 cell)) (vadd (vscale (IZR (snd (fst t))) (row2 cell)) (vscale (IZR (snd t)) (row3 cell))).
Definition has_periods (cell : m3) (g : v3) (t : Z * Z * Z) : Prop :=
  vdot g (row1 cell) = 2 * PI * IZR (fst (fst t)) /\ vdot g (row2 cell) = 2 * PI * IZR (snd (fst t)) /\ vdot g (row3 cell) = 2 * PI * IZR (snd t).
(** plane-wave expansion, without its average, of Gaussian charge clouds of unit charge and exponent alpha around the atoms and all their images:
    each wave has the weight exp(-g^2/(4 alpha)) / volume *)
Definition smeared (acc weight : R) (n : nat) (cell : m3) (r : nat -> v3) (q : nat -> R) (x : v3) : R :=
  lsum (g_range acc weight n cell) (fun t => if is_zero t then 0 else
    exp (- vdot (wave cell t) (wave cell t) / (4 * alpha weight n cell)) / volume cell * rsum n (fun j => q j * cos (vdot (wave cell t) (vsub x (r j))))).
Definition placed_at (r : nat -> v3) (i : nat) (x : v3) (k : nat) : v3 := if (k =? i)%nat then x else r k.
