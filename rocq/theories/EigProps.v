From Coq Require Import Reals ZArith String List Bool Arith.
From Verif Require Import Vec Cpx RhoModel RhoSpec EigModel EigSpec EigProofs EigProofs2.
Import ListNotations.
Open Scope R_scope.

(** C142: workspaces of the eigensolver.  A case: ex_calls *)
Theorem C142_workspaces :
  forall cs : list gcall,
  Forall small cs ->
  Forall memory_left cs ->
  let
  '(s, ls) := gruns ws0 cs in
   (forall x : lapack, In (Some x) ls -> enough x) /\
   Forall2 (fun (c : gcall) (l : option lapack) => size_of c <> None <-> l <> None) cs ls /\
   li s = largest i_need cs 0 /\ lr s = largest r_need cs 0 /\ lc s = largest c_need cs 0.
Proof. exact workspaces. Qed.
Theorem C142_after_failure_refuted :
  exists (cs : list gcall) (c : gcall) (x : lapack),
    Forall small (cs ++ [c]) /\
    memory_left c /\
    size_of c = Some 2%Z /\
    snd (gstep (fst (gruns ws0 cs)) c) = Some x /\ ~ enough x /\ (exists (l i : Z) (b : option Z), x = Dsygvd 2 l None i b).
Proof. exact after_failure. Qed.
Theorem C142_overflow_refuted :
  exists x : lapack, snd (gstep ws0 (GReal true true 32767)) = Some x /\ ~ enough x.
Proof. exact overflow. Qed.
Theorem C142_buffers :
  forall (N : Z) (t : dtype),
  (0 <= N)%Z -> t = TDouble \/ t = TComplex -> py_geig (N, N) (N, N) t t = Some ((N * N * itemsize t)%Z, (N * N * itemsize t)%Z, (N * 8)%Z, t).
Proof. exact buffers. Qed.
Theorem C142_mixed_types_refuted :
  forall N : Z,
  (1 <= N)%Z -> exists a b w : Z, py_geig (N, N) (N, N) TDouble TComplex = Some (a, b, w, TComplex) /\ (a < N * N * itemsize TComplex)%Z.
Proof. exact buffer_short. Qed.
(** C143: states returned.  Cases: z1_contract, z1_case *)
Theorem C143_diagonalize :
  forall (z : nat -> (nat -> SkModel.cplx) -> (nat -> SkModel.cplx) -> (nat -> R) -> Z * (nat -> SkModel.cplx) * (nat -> R)) 
    (N : nat) (tol : R) (evmin : (nat -> nat -> SkModel.cplx) -> R) (w0 : nat -> R) (H S : nat -> nat -> SkModel.cplx),
  lapack_contract z ->
  hermitian N H ->
  hermitian N S ->
  0 <= tol ->
  succeeds z N H S w0 ->
  exists (e : nat -> R) (wf : nat -> nat -> SkModel.cplx),
    diagonalize z N tol evmin w0 H S = inr (e, wf) /\
    (forall a : nat, (a < N)%nat -> eigenstate N H S (fun _ _ : nat => 0) (wf a) (e a)) /\
    (forall a b : nat, (a < N)%nat -> (b < N)%nat -> bracket N S (wf a) (wf b) = (if a =? b then c1 else c0)) /\
    (forall a b : nat, (a <= b)%nat -> (b < N)%nat -> e a <= e b).
Proof. exact diag_success. Qed.
Theorem C143_norm :
  forall (z : nat -> (nat -> SkModel.cplx) -> (nat -> SkModel.cplx) -> (nat -> R) -> Z * (nat -> SkModel.cplx) * (nat -> R)) 
    (N : nat) (tol : R) (evmin : (nat -> nat -> SkModel.cplx) -> R) (w0 : nat -> R) (H S : nat -> nat -> SkModel.cplx) 
    (e : nat -> R) (wf : nat -> nat -> SkModel.cplx),
  diagonalize z N tol evmin w0 H S = inr (e, wf) -> forall a : nat, (a < N)%nat -> cabs (csub (bracket N S (wf a) (wf a)) c1) <= tol.
Proof. exact diag_norm. Qed.
Theorem C143_indefinite :
  forall (z : nat -> (nat -> SkModel.cplx) -> (nat -> SkModel.cplx) -> (nat -> R) -> Z * (nat -> SkModel.cplx) * (nat -> R)) 
    (N : nat) (tol : R) (evmin : (nat -> nat -> SkModel.cplx) -> R) (w0 : nat -> R) (H S : nat -> nat -> SkModel.cplx),
  lapack_contract z ->
  hermitian N S ->
  ~ positive_definite N S ->
  (exists a : nat, (a < N)%nat /\ tol < cabs (csub (bracket N S (fun i : nat => H i a) (fun i : nat => H i a)) c1)) /\
  diagonalize z N tol evmin w0 H S = inl (if GeomModel.ltb (evmin S) 0 then NotPositive else WrongNorm) \/
  (forall a : nat, (a < N)%nat -> cabs (csub (bracket N S (fun i : nat => H i a) (fun i : nat => H i a)) c1) <= tol) /\
  (exists wf : nat -> nat -> SkModel.cplx, diagonalize z N tol evmin w0 H S = inr (w0, wf) /\ (forall a i : nat, (i < N)%nat -> wf a i = H i a)).
Proof. exact diag_indefinite. Qed.
Theorem C143_all_k :
  forall (z : nat -> (nat -> SkModel.cplx) -> (nat -> SkModel.cplx) -> (nat -> R) -> Z * (nat -> SkModel.cplx) * (nat -> R)) 
    (N nk : nat) (tol : R) (evmin : (nat -> nat -> SkModel.cplx) -> R) (w0 : nat -> nat -> R) (H0 S : kmatrix) (H1 : option (nat -> nat -> R)),
  lapack_contract z ->
  khermitian N nk H0 ->
  khermitian N nk S ->
  0 <= tol ->
  (forall h : nat -> nat -> R, H1 = Some h -> forall i j : nat, (i < N)%nat -> (j < N)%nat -> h i j = h j i) ->
  (forall k : nat, (k < nk)%nat -> succeeds z N (hamiltonian (H0 k) (S k) H1) (S k) (w0 k)) ->
  exists (e : nat -> nat -> R) (wf : nat -> nat -> nat -> SkModel.cplx),
    all_k z N nk tol evmin w0 H0 S H1 = inr (e, wf) /\
    orthonormal N nk S wf /\
    (forall k a : nat,
     (k < nk)%nat -> (a < N)%nat -> eigenstate N (H0 k) (S k) match H1 with
                                                              | Some h => h
                                                              | None => fun _ _ : nat => 0
                                                              end (wf k a) (e k a)) /\
    (forall k a b : nat, (k < nk)%nat -> (a <= b)%nat -> (b < N)%nat -> e k a <= e k b).
Proof. exact all_k_spec. Qed.
Theorem C143_indefinite_refuted :
  forall (z : nat -> (nat -> SkModel.cplx) -> (nat -> SkModel.cplx) -> (nat -> R) -> Z * (nat -> SkModel.cplx) * (nat -> R))
    (evmin : (nat -> nat -> SkModel.cplx) -> R) (w0 : nat -> R),
  lapack_contract z ->
  exists (N : nat) (H S0 wf : nat -> nat -> SkModel.cplx),
    hermitian N H /\
    hermitian N S0 /\
    ~ positive_definite N S0 /\
    diagonalize z N (/ 10 ^ 8) evmin w0 H S0 = inr (w0, wf) /\ (forall e : R, ~ eigenstate N H S0 (fun _ _ : nat => 0) (wf 0%nat) e).
Proof. exact unnoticed. Qed.
(** C144: helpers for matrices.  A case: ex_root *)
Theorem C144_hermitian :
  forall (N : nat) (H : nat -> nat -> SkModel.cplx), hermitian N (make_hermitian H) <-> (forall i : nat, (i < N)%nat -> snd (H i i) = 0).
Proof. exact hermitian_made. Qed.
Theorem C144_triangle :
  forall (N : nat) (H : nat -> nat -> SkModel.cplx) (i j : nat),
  (forall i0 j0 : nat, (i0 < j0)%nat -> (j0 < N)%nat -> H i0 j0 = c0) ->
  (j <= i)%nat -> (i < N)%nat -> snd (H i i) = 0 -> make_hermitian H i j = H i j.
Proof. exact triangle_made. Qed.
Theorem C144_antihermitian :
  forall (D : nat -> nat -> SkModel.cplx) (i j : nat), make_antihermitian D i j = copp (SkModel.cconj (make_antihermitian D j i)).
Proof. exact antihermitian_made. Qed.
Theorem C144_dot :
  forall (N : nat) (S : nat -> nat -> SkModel.cplx) (v u : nat -> SkModel.cplx), wf_dot_product N S v u = bracket N S v u.
Proof. exact dot_bracket. Qed.
Theorem C144_square :
  forall (n : nat) (A : matrix) (p : string) (tol : R),
  rows A = n ->
  cols A = n ->
  match has_property A p tol with
  | Some b =>
      (KsModel.lower p = "square"%string -> b = true) /\
      (KsModel.lower p = "hermitian"%string ->
       b = true <-> (forall i j : nat, (i < n)%nat -> (j < n)%nat -> cabs (csub (entry A i j) (SkModel.cconj (entry A j i))) < tol)) /\
      (KsModel.lower p = "symmetric"%string ->
       b = true <-> (forall i j : nat, (i < n)%nat -> (j < n)%nat -> cabs (csub (entry A i j) (entry A j i)) < tol)) /\
      (KsModel.lower p = "orthogonal"%string ->
       b = true <->
       (forall i j : nat,
        (i < n)%nat ->
        (j < n)%nat -> cabs (csub (SkModel.csum n (fun k : nat => cmul (entry A i k) (entry A j k))) (if i =? j then c1 else c0)) < tol)) /\
      (KsModel.lower p = "unitary"%string ->
       b = true <->
       (forall i j : nat,
        (i < n)%nat ->
        (j < n)%nat ->
        cabs (csub (SkModel.csum n (fun k : nat => cmul (entry A i k) (SkModel.cconj (entry A j k)))) (if i =? j then c1 else c0)) < tol))
  | None => ~ In (KsModel.lower p) ["square"%string; "hermitian"%string; "symmetric"%string; "orthogonal"%string; "unitary"%string]
  end.
Proof. exact property_square. Qed.
Theorem C144_row_refuted :
  forall (n : nat) (tol : R) (f : nat -> nat -> SkModel.cplx),
  (2 <= n)%nat ->
  0 < tol ->
  has_property {| rows := 1; cols := n; entry := f |} "symmetric" tol = Some true /\
  has_property {| rows := 1; cols := n; entry := f |} "square" tol = Some false.
Proof. exact row_symmetric. Qed.
Theorem C144_root :
  forall (eigh : nat -> (nat -> nat -> R) -> (nat -> R) * (nat -> nat -> R)) (n : nat) (A X : nat -> nat -> R),
  eigh_contract eigh ->
  (forall i j : nat, (i < n)%nat -> (j < n)%nat -> A i j = A j i) ->
  matrix_square_root eigh n A = Some X ->
  (forall i j : nat, (i < n)%nat -> (j < n)%nat -> rsum n (fun k : nat => X i k * X k j) = A i j /\ X i j = X j i) /\
  (forall v : nat -> R, 0 <= rsum n (fun i : nat => rsum n (fun j : nat => v i * X i j * v j))).
Proof. exact square_root. Qed.
Print Assumptions C142_workspaces.
Print Assumptions C142_after_failure_refuted.
Print Assumptions C142_overflow_refuted.
Print Assumptions C142_buffers.
Print Assumptions C142_mixed_types_refuted.
Print Assumptions C143_diagonalize.
Print Assumptions C143_norm.
Print Assumptions C143_indefinite.
Print Assumptions C143_all_k.
Print Assumptions C143_indefinite_refuted.
Print Assumptions C144_hermitian.
Print Assumptions C144_triangle.
Print Assumptions C144_antihermitian.
Print Assumptions C144_dot.
Print Assumptions C144_square.
Print Assumptions C144_row_refuted.
Print Assumptions C144_root.
