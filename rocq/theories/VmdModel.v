(** Lists of vectors.  box/mix.py *)
From Coq Require Import Reals List Bool Arith.
Import ListNotations.
Open Scope R_scope.

(** a list of vectors, or one array of all their components *)
Inductive vecs := VecList (l : list (list R)) | VecArray (a : list R).
Inductive vmode := MDefault | MGlobal | MOther.
(** VmIndex: vec[0] of an empty list; VmAssertion: length not divisible by three; VmType: range() of a float, because / of Python 3 is not integer division *)
Inductive vmerror := VmIndex | VmAssertion | VmType.
(** VmNone: no branch applies *)
Inductive vmres := VmOk (v : vecs) | VmNone | VmFail (e : vmerror).
(** select_vector_mode 398-421 *)
Definition select_vector_mode (v : vecs) (mode : vmode) : vmres :=
  match v, mode with
  | VecList l, MDefault => VmOk (VecList l)
  | VecArray a, MGlobal => VmOk (VecArray a)
  | VecList [], MGlobal => VmFail VmIndex
  | VecList (x :: l), MGlobal => VmOk (VecArray (fold_left (fun x v => x ++ v) l x))
  | VecArray a, MDefault => if negb (length a mod 3 =? 0)%nat then VmFail VmAssertion else VmFail VmType
  | _, MOther => VmNone
  end.
(** norm 443-448 and max_norm 390-396 *)
Definition norm (a : list R) : R := sqrt (fold_left (fun s x => s + x * x) a 0).
Definition max_norm (l : list (list R)) : R := fold_left (fun mx v => Rmax mx (norm v)) l 0.
