From Coq Require Import Reals ZArith List Bool Arith.
From Verif Require Import Vec GeomModel SkModel SkSpec Cpx RhoModel RhoSpec EigModel.
Import ListNotations.
Open Scope R_scope.

(** what the documentation of LAPACK asks of the workspaces (JOBZ = 'V'); a buffer has at least the length it is said to have *)
Definition holds_at_least (b : option Z) (n : Z) : Prop := exists m, b = Some m /\ (n <= m)%Z.
Definition enough (c : lapack) : Prop :=
  match c with
  | Dsygvd N l b l' b' => (1 + 6 * N + 2 * N * N <= l /\ 3 + 5 * N <= l')%Z /\ holds_at_least b l /\ holds_at_least b' l'
  | Zhegvd N lc bc l b l' b' => (2 * N + N * N <= lc /\ 1 + 5 * N + 2 * N * N <= l /\ 3 + 5 * N <= l')%Z /\
      holds_at_least bc lc /\ holds_at_least b l /\ holds_at_least b' l'
  end.
(** malloc never fails *)
Definition memory_left (c : gcall) : Prop :=
  match c with GReal a b _ => a = true /\ b = true | GComplex a b c _ => a = true /\ b = true /\ c = true | GFree => True end.
(** sizes that a call gives rise to, and the largest since the last call of free_geig_workspace *)
Definition size_of (c : gcall) : option Z := match c with GReal _ _ N | GComplex _ _ _ N => Some N | GFree => None end.
(** the matrix is not empty and sizes do not overflow *)
Definition small (c : gcall) : Prop := match size_of c with Some N => (1 <= N <= 32766)%Z | None => True end.
Fixpoint largest (f : gcall -> Z) (cs : list gcall) (m : Z) : Z :=
  match cs with [] => m | GFree :: cs => largest f cs 0 | c :: cs => largest f cs (Z.max m (f c)) end.
Definition i_need (c : gcall) : Z := match c with GReal _ _ N | GComplex _ _ _ N => (3 + 5 * N)%Z | GFree => 0%Z end.
Definition r_need (c : gcall) : Z := match c with GReal _ _ N => (1 + 6 * N + 2 * N * N)%Z | GComplex _ _ _ N => (1 + 5 * N + 2 * N * N)%Z | GFree => 0%Z end.
Definition c_need (c : gcall) : Z := match c with GComplex _ _ _ N => (2 * N + N * N)%Z | _ => 0%Z end.
(** the Hermitian matrix given by the lower triangle stored column by column *)
Definition lower_matrix (N : nat) (m : nat -> cplx) (i j : nat) : cplx :=
  if (j <? i)%nat then m (i + N * j)%nat else if (i <? j)%nat then cconj (m (j + N * i)%nat) else rc (fst (m (i + N * i)%nat)).
Definition positive_definite (N : nat) (B : nat -> nat -> cplx) : Prop :=
  forall v, (exists i, (i < N)%nat /\ v i <> c0) -> 0 < fst (bracket N B v v).
(** the documented behaviour of dsygvd and zhegvd with ITYPE = 1, JOBZ = 'V', UPLO = 'L' *)
Definition lapack_contract (z : nat -> (nat -> cplx) -> (nat -> cplx) -> (nat -> R) -> Z * (nat -> cplx) * (nat -> R)) : Prop :=
  forall N A B w info A' w', z N A B w = (info, A', w') ->
  (info = 0%Z ->
    (forall a i, (a < N)%nat -> (i < N)%nat ->
       csum N (fun j => cmul (lower_matrix N A i j) (A' (j + N * a)%nat)) = cscale (w' a) (csum N (fun j => cmul (lower_matrix N B i j) (A' (j + N * a)%nat)))) /\
    (forall a b, (a < N)%nat -> (b < N)%nat ->
       bracket N (lower_matrix N B) (fun i => A' (i + N * a)%nat) (fun i => A' (i + N * b)%nat) = if (a =? b)%nat then c1 else c0) /\
    (forall a b, (a <= b)%nat -> (b < N)%nat -> w' a <= w' b)) /\
  (~ positive_definite N (lower_matrix N B) -> (Z.of_nat N < info)%Z /\ A' = A /\ w' = w).
(** LAPACK reports success *)
Definition succeeds (z : nat -> (nat -> cplx) -> (nat -> cplx) -> (nat -> R) -> Z * (nat -> cplx) * (nat -> R)) (N : nat) (H S : nat -> nat -> cplx) (w : nat -> R) : Prop :=
  fst (fst (z N (fmem N H) (fmem N S) w)) = 0%Z.
(** the documented behaviour of numpy.linalg.eigh on symmetric matrices *)
Definition eigh_contract (eigh : nat -> (nat -> nat -> R) -> (nat -> R) * (nat -> nat -> R)) : Prop :=
  forall n A D U, eigh n A = (D, U) -> (forall i j, (i < n)%nat -> (j < n)%nat -> A i j = A j i) ->
  (forall i k, (i < n)%nat -> (k < n)%nat -> rsum n (fun j => A i j * U j k) = D k * U i k) /\
  (forall k l, (k < n)%nat -> (l < n)%nat -> rsum n (fun i => U i k * U i l) = if (k =? l)%nat then 1 else 0) /\
  (forall i j, (i < n)%nat -> (j < n)%nat -> rsum n (fun k => U i k * U j k) = if (i =? j)%nat then 1 else 0).
