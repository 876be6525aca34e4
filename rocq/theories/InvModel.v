(** One calculation from beginning to end: matrices, self-consistency, energy and forces.
    hotbit/states.py, hotbit/solver.py, hotbit/aseinterface.py, hotbit/coulomb/direct_coulomb.py, put together from the other models *)
From Coq Require Import Reals ZArith List Bool Arith.
From Verif Require Import Vec GeomModel CoulModel MixModel OccModel PairModel SkModel Cpx RhoModel EigModel GamModel.
Import ListNotations.
Open Scope R_scope.

(** ** What States.solve (190-212) and the energies and forces work with.  The third index of dH0, dS, dG, the field and the forces is the
    Cartesian component.  s_phi: potential of the Coulomb solver for given charges, times Bohr; s_field: its field, times Bohr^2;
    s_ext: es.ext; s_erep (None: AssertionError) and s_epp: pair energies in eV; s_frep and s_fpp: pair forces in atomic units *)
Record system := System {
  s_norb : nat; s_N : nat; s_nk : nat; s_o1 : nat -> nat; s_no : nat -> nat;
  s_val : nat -> R; s_Z : nat -> R; s_wk : nat -> R; s_nel : R; s_width : R; s_charge : R;
  s_H0 : kmatrix; s_S : kmatrix; s_dH0 : nat -> kmatrix; s_dS : nat -> kmatrix;
  s_G : nat -> nat -> R; s_dG : nat -> nat -> nat -> R; s_phi : vec -> vec; s_field : vec -> nat -> vec; s_ext : vec;
  s_erep : option R; s_epp : R; s_efree : R; s_frep : nat -> vec; s_fpp : nat -> vec }.
(** what is kept of a calculation: st.e, st.f, st.dq (of the last update), st.rho, st.rhoe; band structure and Coulomb energy in Hartree,
    the potential energy in eV, and the forces in eV/Angstrom *)
Record result := Result {
  r_e : nat -> nat -> R; r_f : nat -> nat -> R; r_dq : vec; r_rho : kmatrix; r_rhoe : kmatrix;
  r_ebs : R; r_ecoul : R; r_epot : R; r_force : nat -> vec }.
(** iterations: what is recorded in iter_history; solves: number of diagonalisations *)
Inductive answer := Solved (r : result) (iterations : option nat) (solves : nat) | NotConverged (solves : nat) | Exception.

Section Calculation.
(** LAPACK, the smallest eigenvalue of an overlap matrix, content of new arrays; overflow of exp; root finder; mixer *)
Variables (z : nat -> (nat -> cplx) -> (nat -> cplx) -> (nat -> R) -> Z * (nat -> cplx) * (nat -> R)) (evmin : (nat -> nat -> cplx) -> R) (w0 : nat -> nat -> R).
Variables (MAXE : R) (brentq : (R -> R) -> R -> R -> R -> option R) (m : mixer).
(** tol_eigenvector_norm, tol_mulliken, tol_imaginary_e; SCC; maxiter *)
Variables (tol_norm tol_mull tol_im Hartree Bohr : R) (scc : bool) (maxiter : nat).
Variable X : system.

(** es.construct_h1(dq), electrostatics.py 216-238 with set_dq 174-182 *)
Definition h1_of (dq : vec) : nat -> nat -> R :=
  construct_h1 (s_N X) (s_o1 X) (s_no X) (epsilon (s_N X) (s_G X) (s_phi X dq) dq) (s_ext X).
(** h1, eigenvalues and wave functions of one pass, solver.py 73-77; None: AssertionError *)
Definition passed : Type := ((nat -> nat -> R) * (nat -> nat -> R) * (nat -> nat -> nat -> cplx))%type.
Definition pass (H1 : option (nat -> nat -> R)) : option passed :=
  match all_k z (s_norb X) (s_nk X) tol_norm evmin w0 (s_H0 X) (s_S X) H1 with
  | inl _ => None
  | inr (e, wf) => Some (match H1 with Some h => h | None => fun _ _ => 0 end, e, wf)
  end.
(** States.update 230-243 and mulliken 307-332.  Without SCC the code calls mulliken only in check_mulliken_charges *)
Definition occupations (p : passed) : option (nat -> nat -> R) :=
  let '(_, e, _) := p in
  match occupy MAXE (s_nk X) (s_norb X) (s_wk X) (s_width X) (s_nel X) e brentq with None => None | Some (_, f) => Some f end.
Definition density (wf : nat -> nat -> nat -> cplx) (f : nat -> nat -> R) : kmatrix := fun k => compute_rho (s_norb X) (wf k) (f k).
Definition density_e (wf : nat -> nat -> nat -> cplx) (f e : nat -> nat -> R) : kmatrix := fun k => compute_rhoe (s_norb X) (wf k) (f k) (e k).
Definition charges (p : passed) : option vec :=
  match occupations p with
  | None => None
  | Some f => mulliken (s_norb X) (s_N X) (s_nk X) (s_o1 X) (s_no X) (s_val X) (s_wk X) (s_charge X) tol_mull (density (snd p) f) (s_S X)
  end.
(** States.solve 190-212 after the matrices, with check_mulliken_charges 215-227, large_update 246-262; get_potential_energy and get_forces,
    aseinterface.py 448-485.  Without SCC dq is not set and the Coulomb energy is zero *)
Definition finish (p : passed) : option result :=
  let '(h1, e, wf) := p in
  match occupations p, charges p with
  | Some f, Some dq =>
      if negb (sane (s_N X) dq (s_Z X)) then None else
      let rho := density wf f in
      let rhoe := density_e wf f e in
      match band_structure_energy (s_norb X) (s_nk X) (s_wk X) tol_im rho (s_H0 X), s_erep X with
      | Some ebs, Some erep =>
          let eps := epsilon (s_N X) (s_G X) (s_phi X dq) dq in
          let ecoul := coulomb_energy (s_N X) scc dq eps in
          Some (Result e f dq rho rhoe ebs ecoul (ebs * Hartree + ecoul * Hartree + erep + s_epp X - s_efree X * Hartree)
            (fun c I => (band_structure_force (s_norb X) (s_nk X) (s_o1 X) (s_no X) (s_wk X) (dH_scc scc h1 (s_dH0 X c) (s_dS X c)) (s_dS X c) rho rhoe I
                         + s_frep X c I + gamma_force (s_N X) scc dq (s_dG X c) (s_field X dq c) I + s_fpp X c I) * (Hartree / Bohr)))
      | _, _ => None
      end
  | _, _ => None
  end.
(** dq: the starting charges, guess_dq 178-187; s: the mixer object *)
Definition calculate (s : mst m) (dq : vec) : answer :=
  match get_states (fun dq => pass (Some (h1_of dq))) (pass None) charges m scc maxiter s dq with
  | (Returned p it, n) => match finish p with Some r => Solved r it n | None => Exception end
  | (OutOfIterations, n) => NotConverged n
  | _ => Exception
  end.
End Calculation.

(** ** DirectCoulomb._update, coulomb/direct_coulomb.py 76-121, from the neighbour list; erfc is scipy's *)
Section Direct.
Variables (erfc : R -> R) (cutoff : option R).
Fixpoint lsum {A : Type} (f : A -> R) (l : list A) : R := match l with [] => 0 | x :: l => f x + lsum f l end.
(** the factors of q[j] in phi and of q[j]*n in E *)
Definition direct_f (d : R) : R := match cutoff with None => / d | Some c => erfc (d / c) / d end.
Definition direct_df (d : R) : R :=
  match cutoff with None => / d ^ 2 | Some c => (2 / sqrt PI * exp (- (d / c) ^ 2) / c + erfc (d / c) / d) / d end.
Definition direct_phi (l : list neighbour) (q : vec) (i : nat) : R :=
  lsum (fun b => if (nb_i b =? i)%nat then q (nb_j b) * direct_f (nb_d b) else 0) l.
Definition direct_E (l : list neighbour) (q : vec) (c i : nat) : R :=
  lsum (fun b => if (nb_i b =? i)%nat then q (nb_j b) * direct_df (nb_d b) * comp c (nb_n b) else 0) l.
(** get_gamma 154-180; an empty list gives None in the code *)
Definition direct_gamma (l : list neighbour) (i j : nat) : R :=
  lsum (fun b => if ((nb_i b =? i) && (nb_j b =? j))%nat then direct_f (nb_d b) else 0) l.
(** get_potential_energy 185-192 and get_forces 194-201 *)
Definition direct_energy (N : nat) (l : list neighbour) (q : vec) : R := rsum N (fun i => q i * direct_phi l q i) / 2.
Definition direct_force (l : list neighbour) (q : vec) (c i : nat) : R := q i * direct_E l q c i.
End Direct.

(** ** From a structure to the system.  Elements are numbered *)
(** orbitals, on-site energies, valences, atomic numbers, U, FWHM and free energy of the elements; Slater-Koster tables (columns as in SkModel.tab)
    and repulsion of pairs of elements, the latter in Hartree and Bohr *)
Record database := Database {
  d_no : nat -> nat; d_onsite : nat -> nat -> R; d_val : nat -> R; d_Z : nat -> R; d_U : nat -> R; d_FWHM : nat -> R; d_efree : nat -> R;
  d_H : nat -> nat -> R -> nat -> R; d_dH : nat -> nat -> R -> nat -> R; d_S : nat -> nat -> R -> nat -> R; d_dS : nat -> nat -> R -> nat -> R;
  d_r1 : nat -> nat -> R; d_r2 : nat -> nat -> R; d_vrep : nat -> nat -> R -> R; d_dvrep : nat -> nat -> R -> R; d_rmax : R }.
(** positions in Angstrom; the images of get_distances (elements.py 176-243) with their rotation of orbitals and their phases at the k-points;
    translations and rotations of the cells scanned by get_neighbors; pair potentials of pairs of atoms, the external potential at the atoms *)
Record structure := Structure {
  g_N : nat; g_r : nat -> v3; g_kind : nat -> nat;
  g_nimg : nat; g_O : nat -> m3; g_t : nat -> v3; g_DT : nat -> nat -> nat -> R; g_nk : nat; g_phase : nat -> nat -> cplx; g_wk : nat -> R;
  g_ranges : ranges; g_tr0 : cell -> v3; g_rot : cell -> m3;
  g_pp : nat -> nat -> R -> R; g_dpp : nat -> nat -> R -> R; g_rc : R; g_ext : vec; g_charge : R }.

Section Assemble.
Variables (erfc : R -> R) (Bohr Hartree : R) (gaussian : bool) (gamma_cut : option R) (goal width sepsilon : R) (scc : bool).
Variables (D : database) (g : structure).
(** o1, elements.py: the orbitals of the atoms follow each other *)
Fixpoint first_orbital (no : nat -> nat) (i : nat) : nat := match i with O => O | S i => (first_orbital no i + no i)%nat end.
Definition g_no (I : nat) : nat := d_no D (g_kind g I).
(** the atom of an orbital *)
Fixpoint atom_of (n mu : nat) : nat :=
  match n with
  | O => O
  | S n => if ((first_orbital g_no n <=? mu) && (mu <? first_orbital g_no n + g_no n))%nat then n else atom_of n mu
  end.
Definition flat (M : nat -> nat -> nat -> nat -> cplx) (mu nu : nat) : cplx :=
  let i := atom_of (g_N g) mu in let j := atom_of (g_N g) nu in
  M i (mu - first_orbital g_no i)%nat j (nu - first_orbital g_no j)%nat.
(** Rn in Bohr *)
Definition g_Rn (n j : nat) : v3 := vscale (/ Bohr) (vadd (mv (g_O g n) (g_r g j)) (g_t g n)).
Definition pairwise {A : Type} (t : nat -> nat -> A) (i j : nat) : A := t (g_kind g i) (g_kind g j).
(** H0(k) or S(k), interactions.py 270-408 *)
Definition g_matrix (onsite : nat -> nat -> R) (tab : nat -> nat -> R -> nat -> R) (k : nat) : nat -> nat -> nat -> nat -> cplx :=
  SkModel.matrix (g_nimg g) g_no g_Rn (g_DT g) (g_phase g k) onsite (pairwise tab) (pairwise (d_r1 D)) (pairwise (d_r2 D)).
(** dH0(k) or dS(k), component c; lines 376-397 *)
Definition g_dmatrix (tab dtab : nat -> nat -> R -> nat -> R) (c k i a j b : nat) : cplx :=
  if (j <? i)%nat then dblock2 (g_nimg g) g_no g_Rn (g_O g) (g_DT g) (g_phase g k) (pairwise tab) (pairwise dtab) (pairwise (d_r1 D)) (pairwise (d_r2 D)) j i b a c
  else dblock (g_nimg g) g_no g_Rn (g_DT g) (g_phase g k) (pairwise tab) (pairwise dtab) (pairwise (d_r1 D)) (pairwise (d_r2 D)) i j a b c.
(** construct_Gamma_matrix, electrostatics.py 241-272 *)
Definition g_gamma : gresult :=
  let U := fun I => d_U D (g_kind g I) in let F := fun I => d_FWHM D (g_kind g I) in
  if gaussian then gauss_gamma erfc Bohr (g_N g) (g_r g) (g_tr0 g) (g_rot g) (g_ranges g) U F gamma_cut goal
  else slater_gamma Bohr (g_N g) (g_r g) (g_tr0 g) (g_rot g) (g_ranges g) U gamma_cut goal.
(** None: an exception (atoms too close, gamma matrix, periodic system without gamma_cut) *)
Definition assemble : option system :=
  if too_close (g_N g) (g_nimg g) g_Rn then None else
  let norb := first_orbital g_no (g_N g) in
  let val := fun I => d_val D (g_kind g I) in
  let mk := fun G dG phi E => System norb (g_N g) (g_nk g) (first_orbital g_no) g_no val (fun I => d_Z D (g_kind g I)) (g_wk g)
      (rsum (g_N g) val - g_charge g) width (g_charge g)
      (fun k => flat (g_matrix (fun I => d_onsite D (g_kind g I)) (d_H D) k)) (fun k => flat (g_matrix (fun _ _ => 1 + sepsilon) (d_S D) k))
      (fun c k => flat (g_dmatrix (d_H D) (d_dH D) c k)) (fun c k => flat (g_dmatrix (d_S D) (d_dS D) c k))
      G dG phi E (g_ext g)
      (if distances_ok (g_N g) (g_nimg g) g_Rn (d_rmax D)
       then Some (total_energy (g_N g) (g_nimg g) g_Rn (pairwise (d_vrep D)) (d_rmax D) * Hartree) else None)
      (total_energy (g_N g) (g_nimg g) g_Rn (g_pp g) (g_rc g) * Hartree)
      (rsum (g_N g) (fun I => d_efree D (g_kind g I)))
      (fun c I => comp c (force (g_N g) (g_nimg g) g_Rn (pairwise (d_dvrep D)) (d_rmax D) I))
      (fun c I => comp c (force (g_N g) (g_nimg g) g_Rn (g_dpp g) (g_rc g) I)) in
  if scc then
    match g_gamma, get_neighbours (g_N g) (g_r g) (g_tr0 g) (g_rot g) gamma_cut (g_ranges g) with
    | GOk G dG, Some l => Some (mk G (fun c I J => comp c (dG I J))
        (fun q I => direct_phi erfc gamma_cut l q I * Bohr) (fun q c I => direct_E erfc gamma_cut l q c I * Bohr ^ 2))
    | _, _ => None
    end
  else Some (mk (fun _ _ => 0) (fun _ _ _ => 0) (fun _ _ => 0) (fun _ _ _ => 0)).
End Assemble.
