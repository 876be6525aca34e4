(** Peaks of tabulated curves.  box/mix.py *)
From Coq Require Import Reals List Bool Arith.
From Verif Require Import GeomModel.
Import ListNotations.
Open Scope R_scope.

(** PkValueError: max of an empty array; PkIndexError: y[1] of one element; PkAssertion: assert b>0 *)
Inductive pkerror := PkValueError | PkIndexError | PkAssertion.
Inductive pkres := PkOk (peaks : list (R * R)) | PkFail (e : pkerror).
Section Peaks.
(** fit2(None,x,y) 132-160 of three points: parameters a, b, c of a+0.5*b*(x-c)**2 (the minimisation of fit is an argument) *)
Variable fit2 : R * R * R -> R * R * R -> R * R * R.
Variables (N : nat) (x y : nat -> R) (fact : R).
(** max(y) 178 *)
Definition ymax : R := fold_left Rmax (map y (seq 1 (N - 1))) (y 0%nat).
(** lines 181-186: the ends *)
Definition first_end : list (R * R) := if ltb (y 1%nat) (y 0%nat) && ltb (fact * ymax) (y 0%nat) then [(x 0%nat, y 0%nat)] else [].
Definition last_end : list (R * R) :=
  if ltb (y (N - 2)%nat) (y (N - 1)%nat) && ltb (fact * ymax) (y (N - 1)%nat) then [(x (N - 1)%nat, y (N - 1)%nat)] else [].
(** lines 188-190: the differences have N-1 entries, the condition N-2; entry j of aux is j+1 *)
Definition d (j : nat) : R := y (j + 1)%nat - y j.
Definition candidates : list nat := map (fun j => (j + 1)%nat) (filter (fun j => ltb 0 (d j) && ltb (d (j + 1)) 0) (seq 0 (N - 2))).
(** lines 191-196 *)
Fixpoint refine (l : list nat) (acc : list (R * R)) : pkres :=
  match l with
  | [] => PkOk acc
  | i :: l =>
    let '(a, b, c) := fit2 (x (i - 1)%nat, x i, x (i + 1)%nat) (- y (i - 1)%nat, - y i, - y (i + 1)%nat) in
    if negb (ltb 0 b) then PkFail PkAssertion else
    refine l (if ltb (fact * ymax) (- a) then acc ++ [(c, - a)] else acc)
  end.
(** get_peak_positions 163-198; positions and heights as pairs *)
Definition get_peak_positions : pkres :=
  match N with
  | O => PkFail PkValueError
  | 1%nat => PkFail PkIndexError
  | _ => refine candidates (first_end ++ last_end)
  end.
End Peaks.
