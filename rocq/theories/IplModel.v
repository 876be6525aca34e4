(** Paths between given points, e.g. for band structures.  box/interpolation.py *)
From Coq Require Import Reals ZArith List Bool Arith.
From Verif Require Import GeomModel.
Import ListNotations.
Open Scope R_scope.

(** IValue: round of nan, when all points are the same; IIndex: points[0] of no points *)
Inductive ierror := IValue | IIndex.
Inductive ires := IOk (path : list v3) (distances labels : list R) | IFail (e : ierror).
(** line 850 *)
Fixpoint lengths (A : v3) (l : list v3) : list R := match l with [] => [] | B :: l => vnorm (vsub B A) :: lengths B l end.
Definition sum (l : list R) : R := fold_left Rplus l 0.
(** lines 857-860: round is that of Python 3 *)
Definition n_i (dk len : R) : Z := let n := (pyround (len / dk) + 1)%Z in if ltb (IZR n * dk) len then (n + 1)%Z else n.
(** np.linspace(A,B,n)[j] of the three components, without the first; n=1 has only the first 862-869 *)
Definition linspace (A B : v3) (n : Z) (j : nat) : v3 := vadd A (vscale (INR j / (IZR n - 1)) (vsub B A)).
Definition segment (A B : v3) (n : Z) : list v3 := map (linspace A B n) (seq 1 (Z.to_nat n - 1)).
Fixpoint path_from (dk : R) (A : v3) (l : list v3) : list v3 :=
  match l with [] => [] | B :: l => segment A B (n_i dk (vnorm (vsub B A))) ++ path_from dk B l end.
(** lines 870-872 *)
Fixpoint cumulate (d : R) (p : v3) (l : list v3) : list R := match l with [] => [] | q :: l => let d := d + vnorm (vsub q p) in d :: cumulate d q l end.
(** interpolate_path 836-873, for N of at least 2 *)
Definition interpolate_path (points : list v3) (N : nat) : ires :=
  match points with
  | [] => IFail IIndex
  | A :: l =>
    let len := lengths A l in
    let labels := map (fun i => sum (firstn i len)) (seq 0 (length points)) in
    let dk := sum len / (INR N - 1) in
    if negb (length l =? 0)%nat && (if Req_EM_T dk 0 then true else false) then IFail IValue else
    let path := A :: path_from dk A l in
    IOk path (0 :: cumulate 0 A (path_from dk A l)) labels
  end.
