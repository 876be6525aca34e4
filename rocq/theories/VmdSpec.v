From Coq Require Import Reals List Bool Arith.
From Verif Require Import VmdModel.
Import ListNotations.
Open Scope R_scope.

(** Euclidean length *)
Definition len (a : list R) : R := sqrt (fold_right (fun x s => x ^ 2 + s) 0 a).
(** the components of all vectors, one after the other *)
Definition components (v : vecs) : list R := match v with VecList l => concat l | VecArray a => a end.
