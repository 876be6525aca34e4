(** Density matrix, Mulliken charges, energies and forces.
    hotbit/states.py, hotbit/electrostatics.py, hotbit/analysis/mulliken.py.  Complex numbers are pairs. *)
From Coq Require Import Reals List Bool Arith.
From Verif Require Import Vec GeomModel SkModel Cpx.
Import ListNotations.
Open Scope R_scope.

(** compute_rho, states.py 22-36, for one k-point: wf a i is component i of state a *)
Definition compute_rho (n : nat) (wf : nat -> nat -> cplx) (f : nat -> R) (i j : nat) : cplx :=
  csum n (fun a => cmul (wf a i) (cscale (f a) (cconj (wf a j)))).
(** compute_rhoe, states.py 39-53 *)
Definition compute_rhoe (n : nat) (wf : nat -> nat -> cplx) (f e : nat -> R) (i j : nat) : cplx :=
  csum n (fun a => cmul (wf a i) (cscale (e a * f a) (cconj (wf a j)))).

(** number of orbitals, of atoms and of k-points *)
Section States.
Variables (norb N nk : nat).
(** first orbital and number of orbitals of every atom (el.get_property_lists), valences, weights *)
Variables (o1 no : nat -> nat) (val : nat -> R) (wk : nat -> R).
(** the matrices rho(k), S(k), H0(k) *)
Definition kmatrix : Type := nat -> nat -> nat -> cplx.

(** diag_k and diag, states.py 320-323 and mulliken.py 47-50 *)
Definition diag_k (rho S : nat -> nat -> cplx) (i : nat) : R := fst (csum norb (fun j => cmul (rho i j) (S j i))).
Definition diag (rho S : kmatrix) (i : nat) : R := rsum nk (fun k => wk k * diag_k (rho k) (S k) i).
(** a[o1:o1+no].sum() *)
Definition atom_sum (a : nat -> R) (I : nat) : R := rsum (no I) (fun m => a (o1 I + m)%nat).
(** the excess populations, states.py 324-328 and mulliken.py 69-74 (get_atoms_mulliken) *)
Definition dq_of (rho S : kmatrix) (I : nat) : R := atom_sum (diag rho S) I - val I.
(** States.mulliken 307-332.  None: RuntimeError *)
Definition mulliken (charge tol : R) (rho S : kmatrix) : option (nat -> R) :=
  let q := rsum N (fun I => - dq_of rho S I) in
  if ltb tol (Rabs (q - charge)) then None else Some (dq_of rho S).
(** check_mulliken_charges 216-227: false: Exception *)
Definition sane (dQ Z : nat -> R) : bool := forallb (fun I => negb (ltb (dQ I) (- Z I) || ltb (Z I) (dQ I))) (seq 0 N).
(** guess_dq 178-187 *)
Definition guess_dq (SCC : bool) (count : nat) (charge : R) (prev0 prev1 : nat -> R) (I : nat) : R :=
  if negb SCC then 0 else
  match count with
  | 0%nat => 0 - charge / INR N
  | 1%nat => prev0 I
  | _ => prev0 I + (prev0 I - prev1 I)
  end.
(** get_band_structure_energy 335-349.  None: AssertionError (only a large positive imaginary part is noticed) *)
Definition ebs_c (rho H0 : kmatrix) : cplx :=
  csum nk (fun k => cscale (wk k) (csum norb (fun i => csum norb (fun j => cmul (rho k i j) (H0 k j i))))).
Definition band_structure_energy (tol : R) (rho H0 : kmatrix) : option R :=
  if ltb (snd (ebs_c rho H0)) tol then Some (fst (ebs_c rho H0)) else None.
(** get_band_structure_forces 352-377, one Cartesian component *)
Definition fdiag (dH dS rho rhoe : kmatrix) (i : nat) : cplx :=
  csum nk (fun k => cscale (- wk k) (csum norb (fun j => csub (cmul (dH k i j) (rho k j i)) (cmul (dS k i j) (rhoe k j i))))).
Definition band_structure_force (dH dS rho rhoe : kmatrix) (I : nat) : R :=
  2 * rsum (no I) (fun m => fst (fdiag dH dS rho rhoe (o1 I + m)%nat)).
(** large_update 250-258 *)
Definition dH_scc (SCC : bool) (h1 : nat -> nat -> R) (dH0 dS : kmatrix) : kmatrix :=
  if SCC then fun k i j => cadd (dH0 k i j) (cscale (h1 i j) (dS k i j)) else dH0.

(** ** electrostatics.py.  set_dq 174-182: G is the short-ranged correction, phi the potential of the solver,
    times Bohr *)
Definition epsilon (G : nat -> nat -> R) (phi : nat -> R) (dq : nat -> R) (I : nat) : R := rsum N (fun J => G I J * dq J) + phi I.
(** coulomb_energy 185-194 *)
Definition coulomb_energy (SCC : bool) (dq eps : nat -> R) : R := if SCC then / 2 * rsum N (fun I => dq I * eps I) else 0.
(** gamma_forces 197-213, one component; E: field of the solver times Bohr^2 *)
Definition gamma_force (SCC : bool) (dq : nat -> R) (dG : nat -> nat -> R) (E : nat -> R) (I : nat) : R :=
  if SCC then dq I * (rsum N (fun J => dq J * dG I J) + E I) else 0.
(** construct_h1 216-238: the rows of aux, lines 224-226; the atoms write their rows one after the other *)
Fixpoint aux_rows (n : nat) (v : nat -> R) (mu : nat) : R :=
  match n with
  | O => 0
  | S n => if ((o1 n <=? mu) && (mu <? o1 n + no n))%nat then v n else aux_rows n v mu
  end.
Definition construct_h1 (eps ext : nat -> R) (mu nu : nat) : R :=
  let h1 := / 2 * (aux_rows N eps mu + aux_rows N eps nu) in
  if existsb (fun I => ltb (/ 10 ^ 12) (Rabs (ext I))) (seq 0 N)
  then h1 + / 2 * -1 * (aux_rows N ext mu + aux_rows N ext nu) else h1.

(** ** mulliken.py.  get_atom_mulliken 77-86 and get_basis_mulliken 89-97; the orbitals of atom I are o1..o1+no-1 *)
Definition atom_mulliken (rho S : kmatrix) (I : nat) : R := atom_sum (diag rho S) I.
Definition basis_mulliken (rho S : kmatrix) (mu : nat) : R := diag rho S mu.
(** the three populations of get_atom_all_angmom_mulliken 100-109 and get_atom_wf_all_angmom_mulliken 180-185;
    None: IndexError for an atom without orbitals *)
Definition angmom (n : nat) (all : nat -> R) (l : nat) : option R :=
  if (n =? 0)%nat then None else Some
  match l with
  | 0%nat => all 0%nat
  | 1%nat => if (1 <? n)%nat then rsum (Nat.min n 4 - 1) (fun m => all (1 + m)%nat) else 0
  | 2%nat => if (4 <? n)%nat then rsum (n - 4) (fun m => all (4 + m)%nat) else 0
  | _ => 0
  end.
Definition atom_all_angmom (rho S : kmatrix) (I l : nat) : option R := angmom (no I) (fun m => diag rho S (o1 I + m)%nat) l.
(** aux, lines 52-57 *)
Definition waux (wf : nat -> nat -> nat -> cplx) (S : kmatrix) (k a mu : nat) : R :=
  fst (cmul (cconj (wf k a mu)) (csum norb (fun nu => cmul (wf k a nu) (S k mu nu)))).
(** get_basis_wf_mulliken 112-125, get_atom_wf_mulliken 128-144, get_atom_wf_all_angmom_mulliken 167-185 *)
Definition basis_wf_mulliken wf S (mu k a : nat) (w : bool) : R := (if w then wk k else 1) * waux wf S k a mu.
Definition atom_wf_mulliken wf S (I k a : nat) (w : bool) : R := (if w then wk k else 1) * atom_sum (waux wf S k a) I.
Definition atom_wf_all_angmom wf S (I k a l : nat) (w : bool) : option R :=
  angmom (no I) (fun m => (if w then wk k else 1) * waux wf S k a (o1 I + m)%nat) l.

(** ** bond analysis.  epsm: on-site energies of the orbitals, lines 325-330 *)
Definition epsbar (epsm : nat -> R) (mu nu : nat) : R := / 2 * (epsm mu + epsm nu).
(** HS and rhoM, lines 333-334 *)
Definition HS (H0 S : kmatrix) (epsm : nat -> R) : kmatrix := fun k i j => csub (H0 k i j) (cscale (epsbar epsm i j) (S k i j)).
Definition rhoM (rho H0 S : kmatrix) (epsm : nat -> R) : kmatrix := fun k i j => cmul (rho k i j) (HS H0 S epsm k j i).
Definition rhoS (rho S : kmatrix) : kmatrix := fun k i j => csum norb (fun m => cmul (rho k i m) (S k m j)).
(** sum over the orbitals of two atoms *)
Definition atom_csum2 (A : nat -> nat -> cplx) (I J : nat) : cplx :=
  csum (no I) (fun m => csum (no J) (fun n => A (o1 I + m)%nat (o1 J + n)%nat)).
(** get_mayer_bond_order 342-364.  None: AssertionError *)
Definition mayer_c (rho S : kmatrix) (I J : nat) : cplx :=
  csum nk (fun k => atom_csum2 (fun mu nu => cscale (wk k) (cmul (rhoS rho S k mu nu) (rhoS rho S k nu mu))) I J).
Definition mayer (rho S : kmatrix) (I J : nat) : option R :=
  let M := mayer_c rho S I J in if ltb (Rabs (snd M)) (/ 10 ^ 12) then Some (fst M) else None.
(** get_promotion_energy 405-428 in Hartree; q0: get_free_population *)
Definition promotion (rho S : kmatrix) (epsm q0 : nat -> R) (I : nat) : R :=
  rsum (no I) (fun m => let mu := (o1 I + m)%nat in (basis_mulliken rho S mu - q0 mu) * epsm mu).
(** get_atom_energy 367-402 in Hartree, real part; repp: pair repulsion plus pair potential of two atoms; phi: potential
    of a DirectCoulomb solver *)
Definition atom_energy (SCC : bool) rho H0 S epsm q0 (G : nat -> nat -> R) (phi dq : nat -> R) (repp : nat -> nat -> R) (I : nat) : R :=
  (if SCC then / 2 * G I I * dq I ^ 2 + / 2 * dq I * phi I else 0)
  + repp I I + rsum nk (fun k => wk k * fst (atom_csum2 (rhoM rho H0 S epsm k) I I)) + promotion rho S epsm q0 I.
(** get_bond_energy 431-455 in Hartree *)
Definition bond_energy (SCC : bool) rho H0 S epsm (G : nat -> nat -> R) (dq : nat -> R) (repp : nat -> nat -> R) (I J : nat) : R :=
  repp I J + (if SCC then G I J * dq I * dq J else 0) + rsum nk (fun k => 2 * wk k * fst (atom_csum2 (rhoM rho H0 S epsm k) I J)).
(** get_atom_and_bond_energy 458-478 *)
Definition atom_and_bond SCC rho H0 S epsm q0 G phi dq repp (I : nat) : R :=
  atom_energy SCC rho H0 S epsm q0 G phi dq repp I
  + rsum N (fun J => if (J =? I)%nat then 0 else / 2 * bond_energy SCC rho H0 S epsm G dq repp I J).
End States.

(** ** get_covalent_energy 530-564 for one state: HSk = HS of the k-point, w its weight, v the state.  The real or complex
    numbers appended to y.  None: AttributeError of 0.0.conj() or IndexError of an empty (float) index array *)
Section Covalent.
Variables (norb : nat) (o1 no : nat -> nat) (HSk : nat -> nat -> cplx) (w : R) (v : nat -> cplx).
Definition cov_term (m n : nat) : cplx := cmul (cmul (v m) (cconj (v n))) (HSk n m).
Definition cov_default : cplx := csum norb (fun m => cscale w (csum norb (fun n => cov_term m n))).
Definition cov_orbitals (i j : nat) : cplx :=
  if negb (i =? j)%nat then rc (w * 2 * fst (cov_term i j)) else cscale w (cov_term i j).
Definition cov_atoms (I J : nat) : cplx :=
  if negb (I =? J)%nat
  then csum (no I) (fun m => csum (no J) (fun n => rc (w * 2 * fst (cov_term (o1 I + m) (o1 J + n)))))
  else csum (no I) (fun m => csum (no J) (fun n => cscale w (cov_term (o1 I + m) (o1 J + n)))).
(** l: the lists lorbs of lines 522-524 *)
Fixpoint clsum (l : list nat) (f : nat -> cplx) : cplx := match l with [] => c0 | m :: l => cadd (f m) (clsum l f) end.
Definition cov_angmom (lorbs : nat -> list nat) (i j : nat) : option cplx :=
  match lorbs i, lorbs j with
  | [], _ => if negb (i =? j)%nat then None else Some c0
  | _ :: _, [] => None
  | _ :: _, _ :: _ =>
    let e := clsum (lorbs i) (fun m => cscale w (clsum (lorbs j) (fun n => cov_term m n))) in
    Some (if negb (i =? j)%nat then cadd e (cconj e) else e)
  end.
End Covalent.
