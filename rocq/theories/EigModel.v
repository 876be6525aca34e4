(** Generalised eigenvalue problem: hotbit/c/geig.c, hotbit/solver.py (diagonalize, get_eigenvalues_and_wavefunctions),
    hotbit/auxil.py (matrices), hotbit/wfpropagation.py (matrix_square_root) *)
From Coq Require Import Reals ZArith String Ascii List Bool Arith.
From Verif Require Import Vec GeomModel SkModel Cpx KsModel.
Import ListNotations.
Open Scope R_scope.

(** ** geig.c: workspaces *)
(** C int of 32 bits.  Overflow is undefined in C; here it wraps *)
Definition int32 (z : Z) : Z := ((z + 2 ^ 31) mod 2 ^ 32 - 2 ^ 31)%Z.
(** lines 17-22: liwork, lrwork, lcwork and the buffers, as the number of elements allocated; None: NULL *)
Record ws := Ws { li : Z; lr : Z; lc : Z; bi : option Z; br : option Z; bc : option Z }.
Definition ws0 : ws := Ws 0 0 0 None None None.
(** if (l < need) { free; l = need; malloc }, lines 41-51; ok: malloc succeeds.  The last component is false if the routine returns *)
Definition grow (ok : bool) (need l : Z) (b : option Z) : Z * option Z * bool :=
  if (l <? need)%Z then (need, if ok then Some need else None, ok) else (l, b, true).
Definition need_rr (N : Z) : Z := int32 (1 + 6 * N + 2 * N * N).
Definition need_i (N : Z) : Z := int32 (3 + 5 * N).
Definition need_c (N : Z) : Z := int32 (2 * N + N * N).
Definition need_rc (N : Z) : Z := int32 (1 + 5 * N + 2 * N * N).
(** the arguments of a call of LAPACK *)
Inductive lapack := Dsygvd (N : Z) (lrwork : Z) (rwork : option Z) (liwork : Z) (iwork : option Z)
  | Zhegvd (N : Z) (lcwork : Z) (cwork : option Z) (lrwork : Z) (rwork : option Z) (liwork : Z) (iwork : option Z).
(** geigr, lines 28-80; None: returned before LAPACK was called *)
Definition geigr (okr oki : bool) (N : Z) (s : ws) : ws * option lapack :=
  let '(r, b, go) := grow okr (need_rr N) (lr s) (br s) in
  if negb go then (Ws (li s) r (lc s) (bi s) b (bc s), None) else
  let '(i, b', go') := grow oki (need_i N) (li s) (bi s) in
  let s' := Ws i r (lc s) b' b (bc s) in
  if negb go' then (s', None) else (s', Some (Dsygvd N r b i b')).
(** geigc, lines 88-153 *)
Definition geigc (okc okr oki : bool) (N : Z) (s : ws) : ws * option lapack :=
  let '(c, bc', goc) := grow okc (need_c N) (lc s) (bc s) in
  if negb goc then (Ws (li s) (lr s) c (bi s) (br s) bc', None) else
  let '(r, b, go) := grow okr (need_rc N) (lr s) (br s) in
  if negb go then (Ws (li s) r c (bi s) b bc', None) else
  let '(i, b', go') := grow oki (need_i N) (li s) (bi s) in
  let s' := Ws i r c b' b bc' in
  if negb go' then (s', None) else (s', Some (Zhegvd N c bc' r b i b')).
(** the calls geig (real or complex) and free_geig_workspace, lines 156-248.  The outcome of malloc belongs to the call *)
Inductive gcall := GReal (okr oki : bool) (N : Z) | GComplex (okc okr oki : bool) (N : Z) | GFree.
Definition gstep (s : ws) (c : gcall) : ws * option lapack :=
  match c with
  | GReal okr oki N => geigr okr oki N s
  | GComplex okc okr oki N => geigc okc okr oki N s
  | GFree => (ws0, None)
  end.
Fixpoint gruns (s : ws) (cs : list gcall) : ws * list (option lapack) :=
  match cs with
  | [] => (s, [])
  | c :: cs => let '(s', l) := gstep s c in let '(s'', ls) := gruns s' cs in (s'', l :: ls)
  end.

(** ** py_geig, lines 156-223: types and sizes of arrays *)
Inductive dtype := TDouble | TComplex | TOther (bytes : Z) (iscomplex : bool).
Definition is_complex (t : dtype) : bool := match t with TDouble => false | TComplex => true | TOther _ b => b end.
Definition itemsize (t : dtype) : Z := match t with TDouble => 8 | TComplex => 16 | TOther b _ => b end.
(** bytes of the copy of A (which becomes the eigenvectors), of the copy of B, of w, and the type LAPACK works with; None: TypeError *)
Definition py_geig (Ad Bd : Z * Z) (tA tB : dtype) : option (Z * Z * Z * dtype) :=
  if negb ((fst Ad =? fst Bd) && (snd Ad =? snd Bd) && (fst Ad =? snd Ad))%Z then None else
  let t := if is_complex tA || is_complex tB then TComplex else TDouble in
  let N := fst Ad in
  Some (N * N * itemsize tA, N * N * itemsize t, N * 8, t)%Z.

(** ** values *)
Section Geig.
(** zhegvd (dsygvd on real numbers): N and the memory of A, B (column by column) and w before; info and the memory of A and w afterwards *)
Variable zhegvd : nat -> (nat -> cplx) -> (nat -> cplx) -> (nat -> R) -> Z * (nat -> cplx) * (nat -> R).
(** memory of a Fortran-ordered array and the array of a memory *)
Definition fmem (N : nat) (A : nat -> nat -> cplx) (k : nat) : cplx := A (k mod N)%nat (k / N)%nat.
Definition farray (N : nat) (m : nat -> cplx) (i j : nat) : cplx := m (i + N * j)%nat.
(** eigenvalues and eigenvectors; info is not returned by py_geig (lines 199-209).  w0: content of the new array for the eigenvalues *)
Definition geig (N : nat) (A B : nat -> nat -> cplx) (w0 : nat -> R) : (nat -> R) * (nat -> nat -> cplx) :=
  let '(_, m, w) := zhegvd N (fmem N A) (fmem N B) w0 in (w, farray N m).
Definition cabs (z : cplx) : R := sqrt (fst z ^ 2 + snd z ^ 2).
(** ( np.dot(wf.conj(),S)*wf ).sum(axis=1) *)
Definition norms (N : nat) (S : nat -> nat -> cplx) (wf : nat -> nat -> cplx) (a : nat) : cplx :=
  csum N (fun j => cmul (csum N (fun i => cmul (cconj (wf a i)) (S i j))) (wf a j)).
Inductive derr := NotPositive | WrongNorm | Shape.
(** diagonalize, solver.py 103-143; the message depends on the smallest eigenvalue of S (evmin) *)
Definition diagonalize (N : nat) (tol : R) (evmin : (nat -> nat -> cplx) -> R) (w0 : nat -> R) (H S : nat -> nat -> cplx) : derr + (nat -> R) * (nat -> nat -> cplx) :=
  let '(e, v) := geig N H S w0 in
  let wf := fun a i => v i a in
  if existsb (fun a => ltb tol (cabs (csub (norms N S wf a) c1))) (seq 0 N)
  then inl (if ltb (evmin S) 0 then NotPositive else WrongNorm)
  else inr (e, wf).
(** get_eigenvalues_and_wavefunctions, solver.py 41-58; H1 = None: without electrostatics.  Shapes are right.  The first error ends the loop *)
Definition hamiltonian (H0 S : nat -> nat -> cplx) (H1 : option (nat -> nat -> R)) : nat -> nat -> cplx :=
  match H1 with Some h => fun i j => cadd (H0 i j) (cscale (h i j) (S i j)) | None => H0 end.
Fixpoint all_k (N nk : nat) (tol : R) evmin (w0 : nat -> nat -> R) (H0 S : nat -> nat -> nat -> cplx) H1 : derr + (nat -> nat -> R) * (nat -> nat -> nat -> cplx) :=
  match nk with
  | O => inr (fun _ _ => 0, fun _ _ _ => c0)
  | S k =>
      match all_k N k tol evmin w0 H0 S H1 with
      | inl e => inl e
      | inr (e, wf) =>
          match diagonalize N tol evmin (w0 k) (hamiltonian (H0 k) (S k) H1) (S k) with
          | inl x => inl x
          | inr (e', wf') => inr (fun q => if (q =? k)%nat then e' else e q, fun q => if (q =? k)%nat then wf' else wf q)
          end
      end
  end.
End Geig.

(** ** auxil.py *)
(** make_hermitian 29-32 and make_derivative_antihermitian 35-40 (one component) *)
Definition make_hermitian (H : nat -> nat -> cplx) (i j : nat) : cplx :=
  csub (cadd (H i j) (cconj (H j i))) (if (i =? j)%nat then H j j else c0).
Definition make_antihermitian (D : nat -> nat -> cplx) (i j : nat) : cplx := csub (D i j) (cconj (D j i)).
(** wf_dot_product 42-44 *)
Definition wf_dot_product (N : nat) (S : nat -> nat -> cplx) (v u : nat -> cplx) : cplx :=
  csum N (fun i => cmul (cconj (v i)) (csum N (fun j => cmul (S i j) (u j)))).
(** an array of two dimensions *)
Record matrix := Matrix { rows : nat; cols : nat; entry : nat -> nat -> cplx }.
Definition flatten (M : matrix) (k : nat) : cplx := entry M (k / cols M)%nat (k mod cols M)%nat.
Definition transpose (M : matrix) : matrix := Matrix (cols M) (rows M) (fun i j => entry M j i).
Definition conjugate (M : matrix) : matrix := Matrix (rows M) (cols M) (fun i j => cconj (entry M i j)).
Definition mdot (A B : matrix) : matrix := Matrix (rows A) (cols B) (fun i j => csum (cols A) (fun k => cmul (entry A i k) (entry B k j))).
Definition identity (n : nat) : matrix := Matrix n n (fun i j => if (i =? j)%nat then c1 else c0).
(** same_matrix 47-48 for arrays with equally many elements *)
Definition same_matrix (A B : matrix) (tol : R) : bool :=
  forallb (fun k => ltb (cabs (csub (flatten A k) (flatten B k))) tol) (seq 0 (rows A * cols A)).
(** matrix_has_property 51-78; None: NotImplementedError *)
Definition has_property (A : matrix) (property : string) (tol : R) : option bool :=
  let p := lower property in
  if (p =? "square")%string then Some (rows A =? cols A)%nat
  else if (p =? "hermitian")%string then Some (same_matrix A (transpose (conjugate A)) tol)
  else if (p =? "symmetric")%string then Some (same_matrix A (transpose A) tol)
  else if (p =? "orthogonal")%string then Some (same_matrix (mdot A (transpose A)) (identity (rows A)) tol)
  else if (p =? "unitary")%string then Some (same_matrix (mdot A (transpose (conjugate A))) (identity (rows A)) tol)
  else None.
(** ** wfpropagation.matrix_square_root 7-20, for real matrices; eigh: eigenvalues D and eigenvectors (columns of U).  None: AssertionError *)
Definition rmat (n : nat) (A : nat -> nat -> R) : matrix := Matrix n n (fun i j => rc (A i j)).
Definition matrix_square_root (eigh : nat -> (nat -> nat -> R) -> (nat -> R) * (nat -> nat -> R)) (n : nat) (A : nat -> nat -> R) : option (nat -> nat -> R) :=
  match has_property (rmat n A) "symmetric" (/ 10 ^ 12) with
  | Some true =>
      let '(D, U) := eigh n A in
      if negb (forallb (fun i => leb 0 (D i)) (seq 0 n)) then None else
      match has_property (rmat n U) "orthogonal" (/ 10 ^ 12) with
      | Some true => Some (fun i j => rsum n (fun l => rsum n (fun k => U i k * (if (k =? l)%nat then sqrt (D k) else 0)) * U j l))
      | _ => None
      end
  | _ => None
  end.
