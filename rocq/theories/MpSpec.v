(** What the theorems on multipole expansions say *)
From Coq Require Import Reals ZArith List Bool Arith.
From Coquelicot Require Import Coquelicot.
From Verif Require Import Vec GeomModel GeomSpec ScaModel MpModel.
Import ListNotations.
Open Scope R_scope.

Fixpoint cpow (x : C) (n : nat) : C := match n with O => RtoC 1 | S n => Cmult x (cpow x n) end.
(** x^n / n! *)
Definition ediv (x : C) (n : nat) : C := Cdiv (cpow x n) (RtoC (INR (fact n))).
(** -(x + iy)/2 and (x - iy)/2 *)
Definition xi (r : v3) : C := (- vx r / 2, - vy r / 2).
Definition eta (r : v3) : C := (vx r / 2, - vy r / 2).
(** The regular solid harmonic of degree l and order m: the sum over p - q = m of
    (-(x+iy)/2)^p ((x-iy)/2)^q z^(l-p-q) / (p! q! (l-p-q)!); a polynomial in x, y, z, and
    r^l e^(i m phi) P_l^m(cos theta) / (l+m)! for 0 <= m <= l *)
Definition solid (r : v3) (l : nat) (m : Z) : C :=
  csum (S l) (fun p => csum (S l) (fun q =>
    if ((Z.of_nat p - Z.of_nat q =? m)%Z && (p + q <=? l)%nat)%bool
    then Cmult (Cmult (ediv (xi r) p) (ediv (eta r) q)) (ediv (RtoC (vz r)) (l - p - q)) else RtoC 0)).
(** the multipole moment of charges about r0 *)
Fixpoint moment (l : list (v3 * R)) (r0 : v3) (n : nat) (m : Z) : C :=
  match l with [] => RtoC 0 | (r, q) :: l => Cplus (Cmult (RtoC q) (Cconj (solid (vsub r r0) n m))) (moment l r0 n m) end.
(** arrays that hold the function f *)
Definition holds (M : moments) (f : nat -> Z -> C) : Prop :=
  (forall l, RtoC (ml0 M l) = f l 0%Z) /\ (forall l m, (1 <= m <= l)%nat -> mlm M l m = f l (Z.of_nat m)).
(** up to l_max *)
Definition holds_to (lmax : nat) (M : moments) (f : nat -> Z -> C) : Prop :=
  (forall l, (l <= lmax)%nat -> RtoC (ml0 M l) = f l 0%Z) /\ (forall l m, (l <= lmax)%nat -> (1 <= m <= l)%nat -> mlm M l m = f l (Z.of_nat m)).
(** the potential of a local expansion at the displacement s from its centre: sum over l <= lmax and |m| <= l of
    L_lm times the conjugate of the solid harmonic of -s *)
Definition local_value (lmax : nat) (L : moments) (s : v3) : R :=
  Re (csum (S lmax) (fun l => zsum (- Z.of_nat l) (Z.of_nat l) (fun m => Cmult (at_m L l m) (Cconj (solid (vscale (-1) s) l m))))).

(** the images of charges under a list of symmetry operations *)
Definition images (transform : Z * Z * Z -> v3 -> v3) (ops : list (Z * Z * Z)) (qs : list (v3 * R)) : list (v3 * R) :=
  flat_map (fun x => map (fun p => (transform x (fst p), snd p)) qs) ops.
(** charges turned about r0 by T *)
Definition turned (T : m3) (r0 : v3) (p : v3 * R) : v3 * R := (vadd r0 (mv T (vsub (fst p) r0)), snd p).
(** total charge and dipole about r0 *)
Definition total_charge (qs : list (v3 * R)) : R := fold_right (fun p s => snd p + s) 0 qs.
Definition total_dipole (qs : list (v3 * R)) (r0 : v3) : v3 := fold_right (fun p s => vadd (vscale (snd p) (vsub (fst p) r0)) s) vzero qs.
(** mean of positions, multipole_expansion.py 140 *)
Definition mean_position (qs : list (v3 * R)) : v3 := vscale (/ INR (length qs)) (fold_right (fun p s => vadd (fst p) s) vzero qs).
(** the cells z with 2|z_i| < (2 h_i + 1)^k *)
Definition in_range (h k : nat) (z : Z) : Prop := (- Z.of_nat (2 * h + 1) ^ Z.of_nat k < 2 * z < Z.of_nat (2 * h + 1) ^ Z.of_nat k)%Z.
Definition in_block (h : nat * nat * nat) (k : nat) (z : Z * Z * Z) : Prop :=
  in_range (fst (fst h)) k (o1 z) /\ in_range (snd (fst h)) k (o2 z) /\ in_range (snd h) k (o3 z).
(** the Coulomb potential of charges at x *)
Definition potential (qs : list (v3 * R)) (x : v3) : R := fold_right (fun p s => snd p / vnorm (vsub x (fst p)) + s) 0 qs.
(** the error allowed in the potential at x of the local expansion about c of charges whose multipoles are about r0:
    for each charge, |q| (lmax+1) t^(lmax+1) / (D - A) with A = |r - r0| + |x - c|, D = |c - r0| and t = A/D *)
Definition m2l_bound (lmax : nat) (qs : list (v3 * R)) (r0 c x : v3) : R :=
  fold_right (fun p s => Rabs (snd p) * (INR (S lmax) * (((vnorm (vsub (fst p) r0) + vnorm (vsub x c)) / vnorm (vsub c r0)) ^ S lmax
     / (vnorm (vsub c r0) - (vnorm (vsub (fst p) r0) + vnorm (vsub x c))))) + s) 0 qs.
(** the potential on atom i of all atoms of the cells cs except itself *)
Definition lattice_potential (transform : Z * Z * Z -> v3 -> v3) (cs : list (Z * Z * Z)) (qs : list (v3 * R)) (i : nat) : R :=
  fold_right (fun z s => rsum (length qs) (fun j =>
    if (is_000 z && (i =? j)%nat)%bool then 0
    else let p := nth j qs (vzero, 0) in snd p / vnorm (vsub (fst (nth i qs (vzero, 0))) (transform z (fst p)))) + s) 0 cs.
(** at every level, the images of the blocks of n^j cells are not near the atom at x: the sum of the distances of the atoms of
    the block and of x from the centre r0 is at most t times the distance of the two centres, which is at least d *)
Definition separated (a : atoms) (h : nat * nat * nat) (K : nat) (qs : list (v3 * R)) (r0 x : v3) (t d : R) : Prop :=
  forall j z y p, (j + 1 < K)%nat -> In z (far_ops h j) -> in_block h j y -> In p qs ->
    vnorm (vsub (transform Bravais a (fst p) y) r0) + vnorm (vsub x r0) <= t * vnorm (vsub (transform Bravais a r0 z) r0) /\
    d <= vnorm (vsub (transform Bravais a r0 z) r0).
Definition absolute_charge (qs : list (v3 * R)) : R := fold_right (fun p s => Rabs (snd p) + s) 0 qs.
