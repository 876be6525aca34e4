(** Cubic splines and trilinear interpolation.  box/interpolation.py *)
From Coq Require Import Reals ZArith Bool Arith Lia.
From Verif Require Import Vec GeomModel.
Open Scope R_scope.

(** ** Second derivatives; MultipleSplineFunction._initialize 82-104, FastSplineFunction.__init__ 211-224.
    The arrays d2 and u after the first loop (lines 92-96): entry i; entry 0 is the initial zero. *)
Fixpoint sweep (x y : nat -> R) (i : nat) : R * R :=
  match i with
  | O => (0, 0)
  | S k =>
      let '(d2k, uk) := sweep x y k in
      let sig := (x i - x k) / (x (S i) - x k) in
      let p := sig * d2k + 2 in
      ((sig - 1) / p,
       (6 * ((y (S i) - y i) / (x (S i) - x i) - (y i - y k) / (x i - x k)) / (x (S i) - x k) - sig * uk) / p)
  end.
(** line 98 with qn = un = 0, then the loop of lines 99-100 from index n-2 down to 0; back k is d2[n-1-k] *)
Fixpoint back (x y : nat -> R) (n k : nat) : R :=
  match k with
  | O => (0 - 0 * snd (sweep x y (n - 2))) / (0 * fst (sweep x y (n - 2)) + 1)
  | S j => let i := (n - 1 - k)%nat in fst (sweep x y i) * back x y n j + snd (sweep x y i)
  end.
Definition second (x y : nat -> R) (n i : nat) : R := back x y n (n - 1 - i).

(** ** MultipleSplineFunction.__call__ 130-181 for one function and a number v *)
(** np.searchsorted: the first index with v <= x[index], n if there is none *)
Fixpoint searchsorted_from (x : nat -> R) (v : R) (i rest : nat) : nat :=
  match rest with
  | O => i
  | S r => if leb v (x i) then i else searchsorted_from x v (S i) r
  end.
Definition searchsorted (x : nat -> R) (n : nat) (v : R) : nat := searchsorted_from x v 0 n.
(** lines 157-170: the indices lo and hi; index -1 is the last element *)
Definition bracket (x : nat -> R) (n : nat) (v : R) : nat * nat :=
  let hi := searchsorted x n v in
  let lo := match hi with O => (n - 1)%nat | S k => k end in
  let hi := if (hi =? n)%nat then (hi - 1)%nat else hi in
  (lo, hi).
(** lines 172-181 *)
Definition piece (x y : nat -> R) (n lo hi : nat) (h v : R) : R :=
  let a := (x hi - v) / h in let b := (v - x lo) / h in
  a * y lo + b * y hi + ((a ^ 3 - a) * second x y n lo + (b ^ 3 - b) * second x y n hi) * h ^ 2 / 6.
Definition dpiece (x y : nat -> R) (n lo hi : nat) (h v : R) : R :=
  let a := (x hi - v) / h in let b := (v - x lo) / h in
  (y hi - y lo) / h - (3 * a ^ 2 - 1) / 6 * h * second x y n lo + (3 * b ^ 2 - 1) / 6 * h * second x y n hi.
Definition ddpiece (x y : nat -> R) (n lo hi : nat) (h v : R) : R :=
  let a := (x hi - v) / h in let b := (v - x lo) / h in
  a * second x y n lo + b * second x y n hi.
(** der = 0, 1, 2; der=None returns the first two.  h = x[1]-x[0] from __init__ line 36 *)
Definition msf (x y : nat -> R) (n : nat) (v : R) : R :=
  let '(lo, hi) := bracket x n v in piece x y n lo hi (x 1%nat - x 0%nat) v.
Definition msf1 (x y : nat -> R) (n : nat) (v : R) : R :=
  let '(lo, hi) := bracket x n v in dpiece x y n lo hi (x 1%nat - x 0%nat) v.
Definition msf2 (x y : nat -> R) (n : nat) (v : R) : R :=
  let '(lo, hi) := bracket x n v in ddpiece x y n lo hi (x 1%nat - x 0%nat) v.

(** ** FastSplineFunction.__call__ 247-265 and the two index functions 239-245 *)
Inductive gridkind : Type := Linear | Power (p : R).
(** python's ** for a base that is not negative and a positive exponent *)
Definition ppow (t q : R) : R := if Req_EM_T t 0 then 0 else Rpower t q.
(** int() truncates towards zero; its argument is not negative where these are called *)
Definition lower_index (g : gridkind) (x : nat -> R) (n : nat) (v : R) : nat :=
  match g with
  | Linear => Z.to_nat (Int_part ((v - x 0%nat) / (x (n - 1)%nat - x 0%nat) * INR (n - 1)))
  | Power p => Z.to_nat (Int_part (ppow ((v - x 0%nat) / (x (n - 1)%nat - x 0%nat)) (1 / p) * INR (n - 1)))
  end.
(** None: the AssertionError of line 257, or an index beyond the grid *)
Definition fast (body : nat -> nat -> R -> R -> R) (g : gridkind) (x : nat -> R) (n : nat) (v : R) : option R :=
  if ltb v (x 0%nat) || leb (x (n - 1)%nat) v then Some 0
  else let lo := lower_index g x n v in
    if (S lo <? n)%nat && leb (x lo) v && ltb v (x (S lo)) then Some (body lo (S lo) (x (S lo) - x lo) v) else None.
Definition fsf (g : gridkind) (x y : nat -> R) (n : nat) (v : R) : option R := fast (piece x y n) g x n v.
Definition fsf1 (g : gridkind) (x y : nat -> R) (n : nat) (v : R) : option R := fast (dpiece x y n) g x n v.
Definition fsf2 (g : gridkind) (x y : nat -> R) (n : nat) (v : R) : option R := fast (ddpiece x y n) g x n v.

(** ** TrilinearInterpolation.__call__ 769-792.  a: values at grid indices, n: shape, x0 and dg: first point and
    spacing of the three grids.  An index below -n or beyond n-1 raises IndexError (None), the assertions of lines
    771-772 too; a negative index counts from the end. *)
Definition pyindex (n : nat) (i : Z) : option nat :=
  (if (0 <=? i) && (i <? Z.of_nat n) then Some (Z.to_nat i)
   else if (- Z.of_nat n <=? i) && (i <? 0) then Some (Z.to_nat (Z.of_nat n + i)) else None)%Z.
Definition cell (n : nat) (dg r : R) : Z := Z.min (Int_part (r / dg)) (Z.of_nat n - 2).
Definition get3 (a : nat -> nat -> nat -> R) (n1 n2 n3 : nat) (i j k : Z) : option R :=
  match pyindex n1 i, pyindex n2 j, pyindex n3 k with Some i, Some j, Some k => Some (a i j k) | _, _, _ => None end.
Definition inside (n : nat) (x0 dg r : R) : bool := leb x0 r && leb r (x0 + INR (n - 1) * dg).
(** line 778: the position of the cell's grid point, grids[p][ind] (an index too, so it wraps or raises likewise) *)
Definition gridpoint (n : nat) (x0 dg : R) (i : Z) : option R :=
  match pyindex n i with Some k => Some (x0 + INR k * dg) | None => None end.
Definition trilinear (a : nat -> nat -> nat -> R) (n1 n2 n3 : nat) (x0 dg r : v3) : option R :=
  if inside n1 (vx x0) (vx dg) (vx r) && inside n2 (vy x0) (vy dg) (vy r) && inside n3 (vz x0) (vz dg) (vz r) then
    let i := cell n1 (vx dg) (vx r) in let j := cell n2 (vy dg) (vy r) in let k := cell n3 (vz dg) (vz r) in
    match gridpoint n1 (vx x0) (vx dg) i, gridpoint n2 (vy x0) (vy dg) j, gridpoint n3 (vz x0) (vz dg) k with
    | Some gx, Some gy, Some gz =>
      let dx := (vx r - gx) / vx dg in let dy := (vy r - gy) / vy dg in let dz := (vz r - gz) / vz dg in
      match get3 a n1 n2 n3 i j k, get3 a n1 n2 n3 i j (k + 1), get3 a n1 n2 n3 i (j + 1) k, get3 a n1 n2 n3 i (j + 1) (k + 1),
            get3 a n1 n2 n3 (i + 1) j k, get3 a n1 n2 n3 (i + 1) j (k + 1), get3 a n1 n2 n3 (i + 1) (j + 1) k, get3 a n1 n2 n3 (i + 1) (j + 1) (k + 1) with
      | Some a000, Some a001, Some a010, Some a011, Some a100, Some a101, Some a110, Some a111 =>
        let i1 := a000 * (1 - dz) + a001 * dz in let i2 := a010 * (1 - dz) + a011 * dz in
        let j1 := a100 * (1 - dz) + a101 * dz in let j2 := a110 * (1 - dz) + a111 * dz in
        let w1 := i1 * (1 - dy) + i2 * dy in let w2 := j1 * (1 - dy) + j2 * dy in
        Some (w1 * (1 - dx) + w2 * dx)
      | _, _, _, _, _, _, _, _ => None
      end
    | _, _, _ => None
    end
  else None.
