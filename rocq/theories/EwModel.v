(** Ewald summation.  hotbit/coulomb/ewald_sum.py *)
From Coq Require Import Reals ZArith List Bool Arith.
From Verif Require Import Vec GeomModel.
Import ListNotations.
Open Scope R_scope.

(** row vector times matrix, np.dot(v, m) *)
Definition vm (v : v3) (m : m3) : v3 := mv (tr m) v.
(** np.linalg.inv (determinant not zero; LinAlgError otherwise): the columns are the reciprocal vectors *)
Definition inverse (m : m3) : m3 :=
  tr (M3 (vscale (/ det m) (vcross (row2 m) (row3 m))) (vscale (/ det m) (vcross (row3 m) (row1 m))) (vscale (/ det m) (vcross (row1 m) (row2 m)))).
(** range(-m, m+1) *)
Definition span (m : Z) : list Z := map (fun i => (Z.of_nat i - m)%Z) (seq 0 (Z.to_nat (2 * m + 1))).
Definition triples (a b c : Z) : list (Z * Z * Z) := list_prod (list_prod (span a) (span b)) (span c).
Definition vec_of (t : Z * Z * Z) : v3 := V3 (IZR (fst (fst t))) (IZR (snd (fst t))) (IZR (snd t)).
Definition is_zero (t : Z * Z * Z) : bool := ((fst (fst t) =? 0) && (snd (fst t) =? 0) && (snd t =? 0))%Z.
Definition lsum {A} (l : list A) (f : A -> R) : R := fold_right (fun t acc => f t + acc) 0 l.

(** update, lines 48-147; erfc is scipy's function, any function here.  weight, accuracy, number of atoms and volume positive *)
Section Ewald.
Variables (erfc : R -> R) (acc weight : R) (n : nat) (cell : m3).
(** ASE's get_volume *)
Definition volume : R := Rabs (det cell).
(** lines 58-62 *)
Definition alpha : R := Rpower (weight * PI ^ 3 * INR n / volume) (1 / 3).
Definition g_cutoff : R := 2 * sqrt (ln 10 * acc * alpha).
Definition r_cutoff : R := sqrt (ln 10 * acc / alpha).
(** lines 71-75: lengths of the columns of the inverse *)
Definition g_range : list (Z * Z * Z) :=
  let m (b : v3) := (Int_part (g_cutoff / (2 * PI * vnorm b)) + 1)%Z in
  let rc := tr (inverse cell) in triples (m (row1 rc)) (m (row2 rc)) (m (row3 rc)).
(** lines 77-82 *)
Definition wave (t : Z * Z * Z) : v3 := vm (vscale (2 * PI) (vec_of t)) (inverse cell).
(** lines 87-91 *)
Definition rec_weight (t : Z * Z * Z) : R :=
  let g := vdot (wave t) (wave t) in exp (- g / (4 * alpha)) * (if is_zero t then 0 else if ltb 0 g then 1 / g else 0).
(** lines 84-85 and 93-103 *)
Definition phi_rec (r : nat -> v3) (q : nat -> R) (i : nat) : R :=
  lsum g_range (fun t => rec_weight t *
    (rsum n (fun j => sin (vdot (wave t) (r j)) * q j) * sin (vdot (wave t) (r i)) +
     rsum n (fun j => cos (vdot (wave t) (r j)) * q j) * cos (vdot (wave t) (r i)))) * (4 * PI / volume).
(** lines 110-114 *)
Definition r_range : list (Z * Z * Z) :=
  let m (a : v3) := (Int_part (r_cutoff / vnorm a) + 1)%Z in triples (m (row1 cell)) (m (row2 cell)) (m (row3 cell)).
Definition shift (t : Z * Z * Z) : v3 := vm (vec_of t) cell.
Definition dist (r : nat -> v3) (t : Z * Z * Z) (i j : nat) : R := vnorm (vsub (r i) (vadd (shift t) (r j))).
(** lines 118-130, 133-142: all images except the atom itself *)
Definition phi_real (r : nat -> v3) (q : nat -> R) (i : nat) : R :=
  lsum r_range (fun t => if is_zero t then 0 else rsum n (fun j => q j * erfc (sqrt alpha * dist r t i j) / dist r t i j)) +
  rsum n (fun j => if (i =? j)%nat then 0 else q j * erfc (sqrt alpha * vnorm (vsub (r i) (r j))) / vnorm (vsub (r i) (r j))).
(** None: two atoms or images coincide (numpy divides by zero and gives inf or nan) *)
Definition separated (r : nat -> v3) : bool :=
  forallb (fun i => forallb (fun j => forallb (fun t => (is_zero t && (i =? j)%nat) || ltb 0 (dist r t i j)) ((0, 0, 0)%Z :: r_range)) (seq 0 n)) (seq 0 n).
Definition update (r : nat -> v3) (q : nat -> R) : option (nat -> R) :=
  if separated r then Some (fun i => phi_rec r q i + phi_real r q i - 2 * q i * sqrt (alpha / PI)) else None.
(** get_potential_energy 160-165 *)
Definition energy (hartree bohr : R) (r : nat -> v3) (q : nat -> R) : option R :=
  option_map (fun phi => hartree * bohr * rsum n (fun i => q i * phi i) / 2) (update r q).
End Ewald.
