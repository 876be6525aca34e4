From Coq Require Import Reals List Bool Arith.
From Verif Require Import Vec GeomModel SkModel SkSpec Cpx RhoModel.
Import ListNotations.
Open Scope R_scope.

(** atoms own consecutive orbitals (C23) *)
Fixpoint nsum (n : nat) (f : nat -> nat) : nat := match n with O => O | S n => nsum n f + f n end%nat.
Definition layout (norb N : nat) (o1 no : nat -> nat) : Prop :=
  (forall I, (I < N)%nat -> o1 I = nsum I no) /\ norb = nsum N no.
(** the atom of an orbital *)
Definition belongs (o1 no : nat -> nat) (mu I : nat) : Prop := (o1 I <= mu < o1 I + no I)%nat.
Definition hermitian (norb : nat) (A : nat -> nat -> cplx) : Prop :=
  forall i j, (i < norb)%nat -> (j < norb)%nat -> A i j = cconj (A j i).
Definition khermitian (norb nk : nat) (A : kmatrix) : Prop := forall k, (k < nk)%nat -> hermitian norb (A k).
(** <v|A|u> *)
Definition bracket (norb : nat) (A : nat -> nat -> cplx) (v u : nat -> cplx) : cplx :=
  csum norb (fun i => csum norb (fun j => cmul (cmul (cconj (v i)) (A i j)) (u j))).
Definition normalised (norb nk : nat) (S : kmatrix) (wf : nat -> nat -> nat -> cplx) : Prop :=
  forall k a, (k < nk)%nat -> (a < norb)%nat -> bracket norb (S k) (wf k a) (wf k a) = c1.
Definition orthonormal (norb nk : nat) (S : kmatrix) (wf : nat -> nat -> nat -> cplx) : Prop :=
  forall k a b, (k < nk)%nat -> (a < norb)%nat -> (b < norb)%nat ->
  bracket norb (S k) (wf k a) (wf k b) = if (a =? b)%nat then c1 else c0.
(** the density matrices of a set of states *)
Definition krho (norb : nat) (wf : nat -> nat -> nat -> cplx) (f : nat -> nat -> R) : kmatrix :=
  fun k => compute_rho norb (wf k) (f k).
Definition krhoe (norb : nat) (wf : nat -> nat -> nat -> cplx) (f e : nat -> nat -> R) : kmatrix :=
  fun k => compute_rhoe norb (wf k) (f k) (e k).
(** (H0 + h1 S) v = e S v *)
Definition eigenstate (norb : nat) (H S : nat -> nat -> cplx) (h1 : nat -> nat -> R) (v : nat -> cplx) (e : R) : Prop :=
  forall i, (i < norb)%nat ->
  csum norb (fun j => cmul (cadd (H i j) (cscale (h1 i j) (S i j))) (v j)) = cscale e (csum norb (fun j => cmul (S i j) (v j))).
(** electrons in the states *)
Definition filling (norb nk : nat) (wk : nat -> R) (f : nat -> nat -> R) : R := rsum nk (fun k => wk k * rsum norb (f k)).
(** sum over pairs of atoms, each pair once, and each atom with itself *)
Definition pair_sum (N : nat) (v : nat -> nat -> R) : R := rsum N (fun I => rsum N (fun J => if (I <=? J)%nat then v I J else 0)).
(** ** moving atom I *)
Definition owns (o1 no : nat -> nat) (I mu : nat) : bool := ((o1 I <=? mu) && (mu <? o1 I + no I))%nat.
(** derivative of a Hermitian matrix whose derivative with respect to the row atom is dA *)
Definition moved_matrix (o1 no : nat -> nat) (I : nat) (dA : nat -> nat -> cplx) (i j : nat) : cplx :=
  cadd (if owns o1 no I i then dA i j else c0) (if owns o1 no I j then cconj (dA j i) else c0).
(** derivative of a symmetric matrix of atom pairs, -dG being the derivative with respect to the first atom *)
Definition moved_gamma (I : nat) (dG : nat -> nat -> R) (J K : nat) : R :=
  - ((if (J =? I)%nat then dG I K else 0) + (if (K =? I)%nat then dG I J else 0)).
Definition matrix_derivative (n : nat) (A : R -> nat -> nat -> cplx) (t : R) (A' : nat -> nat -> cplx) : Prop :=
  forall i j, (i < n)%nat -> (j < n)%nat -> cderivative (fun s => A s i j) t (A' i j).
Definition vector_derivative (n : nat) (v : R -> nat -> cplx) (t : R) (v' : nat -> cplx) : Prop :=
  forall i, (i < n)%nat -> cderivative (fun s => v s i) t (v' i).
(** electronic energy in the SCC scheme: band structure energy and Coulomb energy, with the potential of the solver being
    linear in the charges *)
Definition dq_states norb nk o1 no val wk wf f S : nat -> R := dq_of norb nk o1 no val wk (krho norb wf f) S.
Definition eps_states (norb N nk : nat) o1 no val wk wf f S G P : nat -> R :=
  let dq := dq_states norb nk o1 no val wk wf f S in epsilon N G (fun I => rsum N (fun J => P I J * dq J)) dq.
Definition scc_energy (norb N nk : nat) o1 no val wk wf f H0 S G P : R :=
  fst (ebs_c norb nk wk (krho norb wf f) H0)
  + coulomb_energy N true (dq_states norb nk o1 no val wk wf f S) (eps_states norb N nk o1 no val wk wf f S G P).
(** sum over states, weighted with occupations and k-point weights *)
Definition state_sum (norb nk : nat) (wk : nat -> R) (f x : nat -> nat -> R) : R :=
  rsum nk (fun k => wk k * rsum norb (fun a => f k a * x k a)).
(** sum over pairs, each pair once, of complex numbers *)
Definition cpair_sum (N : nat) (v : nat -> nat -> cplx) : cplx := csum N (fun I => csum N (fun J => if (I <=? J)%nat then v I J else c0)).
(** entropy of Fermi occupations between 0 and 2, in units of the Boltzmann constant *)
Definition fermi_entropy (norb nk : nat) (wk : nat -> R) (f : nat -> nat -> R) : R :=
  - (2 * rsum nk (fun k => wk k * rsum norb (fun a => f k a / 2 * ln (f k a / 2) + (1 - f k a / 2) * ln (1 - f k a / 2)))).
