From Coq Require Import Reals List Bool Arith Permutation.
From Verif Require Import Vec GeomModel SkModel SkSpec Cpx OccModel RhoModel RhoSpec RhoProofs RhoProofs2 RhoProofs3 RhoProofs4 RhoProofs5 RhoProofs6 RhoProofs7.
Import ListNotations.
Open Scope R_scope.

(** C37.  Cases: x_layout, x_norm, x_filling, x_pop in RhoProofs5 *)
Theorem C37_atoms : forall norb N nk o1 no wk wf f S,
  layout norb N o1 no -> normalised norb nk S wf ->
  rsum N (atom_mulliken norb nk o1 no wk (krho norb wf f) S) = filling norb nk wk f.
Proof. exact atoms_total. Qed.
Theorem C37_charges : forall norb N nk o1 no val wk wf f S charge tol,
  layout norb N o1 no -> normalised norb nk S wf ->
  filling norb nk wk f = rsum N val - charge -> 0 <= tol ->
  exists dq, mulliken norb N nk o1 no val wk charge tol (krho norb wf f) S = Some dq /\ rsum N dq = - charge /\
  forall I, dq I = atom_mulliken norb nk o1 no wk (krho norb wf f) S I - val I.
Proof. exact mulliken_ok. Qed.
Theorem C37_charges_error : forall norb N nk o1 no val wk charge tol rho S,
  mulliken norb N nk o1 no val wk charge tol rho S = None <-> tol < Rabs (rsum N (fun I => val I - atom_mulliken norb nk o1 no wk rho S I) - charge).
Proof. exact mulliken_error. Qed.
Theorem C37_angmom : forall norb nk o1 no wk rho S I,
  (0 < no I)%nat -> exists s p d,
  atom_all_angmom norb nk o1 no wk rho S I 0 = Some s /\ atom_all_angmom norb nk o1 no wk rho S I 1 = Some p /\
  atom_all_angmom norb nk o1 no wk rho S I 2 = Some d /\ s + p + d = atom_mulliken norb nk o1 no wk rho S I.
Proof. exact atom_angmom. Qed.
Theorem C37_wf_atoms : forall norb N nk o1 no wk S wf k a w,
  layout norb N o1 no -> normalised norb nk S wf -> (k < nk)%nat -> (a < norb)%nat ->
  rsum N (fun I => atom_wf_mulliken norb o1 no wk wf S I k a w) = if w then wk k else 1.
Proof. exact wf_atoms_total. Qed.
Theorem C37_wf_angmom : forall norb o1 no wk wf S I k a w,
  (0 < no I)%nat -> exists s p d,
  atom_wf_all_angmom norb o1 no wk wf S I k a 0 w = Some s /\ atom_wf_all_angmom norb o1 no wk wf S I k a 1 w = Some p /\
  atom_wf_all_angmom norb o1 no wk wf S I k a 2 w = Some d /\ s + p + d = atom_wf_mulliken norb o1 no wk wf S I k a w.
Proof. exact atom_wf_angmom. Qed.
Theorem C37_basis_from_states : forall norb nk wk wf f S mu,
  khermitian norb nk S -> (mu < norb)%nat ->
  diag norb nk wk (krho norb wf f) S mu = rsum nk (fun k => rsum norb (fun a => f k a * basis_wf_mulliken norb wk wf S mu k a true)).
Proof. exact basis_from_states. Qed.
Theorem C37_atom_from_states : forall norb N nk o1 no wk wf f S I,
  layout norb N o1 no -> (I < N)%nat -> khermitian norb nk S ->
  atom_mulliken norb nk o1 no wk (krho norb wf f) S I = rsum nk (fun k => rsum norb (fun a => f k a * atom_wf_mulliken norb o1 no wk wf S I k a true)).
Proof. exact atom_from_states. Qed.
(** get_atoms_mulliken()[I] and get_atom_mulliken(I), both documented to return the Mulliken population, differ *)
Theorem C37_atoms_mulliken_refuted :
  exists wf f S val, khermitian 2 1 S /\ orthonormal 2 1 S wf /\ rsum 2 val = filling 2 1 x_wk f /\
  dq_of 2 1 x_o1 x_no val x_wk (krho 2 wf f) S 0 <> atom_mulliken 2 1 x_o1 x_no x_wk (krho 2 wf f) S 0.
Proof. exact atoms_mulliken_differs. Qed.
(** C38.  Cases: x_layout, x_S_herm; any density matrix of states is Hermitian (C74) *)
Theorem C38_decomposition : forall norb N nk o1 no wk SCC rho H0 S epsm q0 G phi dq repp,
  layout norb N o1 no ->
  khermitian norb nk rho -> khermitian norb nk S ->
  (forall I J, (I < N)%nat -> (J < N)%nat -> repp I J = repp J I) ->
  rsum N (atom_and_bond norb N nk o1 no wk SCC rho H0 S epsm q0 G phi dq repp) =
  fst (ebs_c norb nk wk rho H0) + pair_sum N repp + coulomb_energy N SCC dq (epsilon N G phi dq) - rsum norb (fun mu => q0 mu * epsm mu).
Proof. exact decomposition. Qed.
(** C74 *)
Theorem C74_hermitian : forall n wf f,
  hermitian n (compute_rho n wf f).
Proof. exact rho_hermitian. Qed.
Theorem C74_electrons : forall norb nk wk wf f S,
  normalised norb nk S wf ->
  rsum norb (diag norb nk wk (krho norb wf f) S) = filling norb nk wk f.
Proof. exact total_population. Qed.
Theorem C74_band_energy : forall norb nk wk wf f H0 tol,
  khermitian norb nk H0 -> 0 < tol ->
  band_structure_energy norb nk wk tol (krho norb wf f) H0 =
  Some (state_sum norb nk wk f (fun k a => fst (bracket norb (H0 k) (wf k a) (wf k a)))).
Proof. exact ebs_value. Qed.
Theorem C74_levels : forall norb N nk (o1 no : nat -> nat) wk wf f e H0 S eps ext tol,
  layout norb N o1 no ->
  khermitian norb nk H0 -> khermitian norb nk S -> normalised norb nk S wf -> 0 < tol ->
  (forall I, (I < N)%nat -> ext I = 0) ->
  (forall k a, (k < nk)%nat -> (a < norb)%nat -> eigenstate norb (H0 k) (S k) (construct_h1 N o1 no eps ext) (wf k a) (e k a)) ->
  exists ebs, band_structure_energy norb nk wk tol (krho norb wf f) H0 = Some ebs /\
  state_sum norb nk wk f e = ebs + rsum N (fun I => eps I * atom_mulliken norb nk o1 no wk (krho norb wf f) S I).
Proof. exact levels_sum. Qed.
(** an energy with imaginary part -1 passes the check of get_band_structure_energy *)
Theorem C74_imaginary_refuted :
  exists rho H0 tol, 0 < tol /\ snd (ebs_c 1 1 (fun _ => 1) rho H0) = -1 /\
  band_structure_energy 1 1 (fun _ => 1) tol rho H0 = Some (fst (ebs_c 1 1 (fun _ => 1) rho H0)).
Proof. exact ebs_lost_sign. Qed.
(** C75 *)
Theorem C75_guess : forall N SCC count charge p0 p1,
  (0 < N)%nat -> (SCC = false -> charge = 0) ->
  ((1 <= count)%nat -> rsum N p0 = - charge) -> ((2 <= count)%nat -> rsum N p1 = - charge) ->
  rsum N (guess_dq N SCC count charge p0 p1) = - charge.
Proof. exact guess_sum. Qed.
Theorem C75_sane : forall N dQ Z,
  sane N dQ Z = true <-> forall I, (I < N)%nat -> - Z I <= dQ I <= Z I.
Proof. exact sane_spec. Qed.
(** C76.  Cases: force_case, force_value, bs_force_value *)
Theorem C76_forces_partial : forall norb N nk o1 no val wk (wf : R -> nat -> nat -> nat -> cplx) f e (H0 S : R -> kmatrix) (G P : R -> nat -> nat -> R) wf' dH0 dS dG dP I,
  layout norb N o1 no -> (I < N)%nat ->
  (forall s, khermitian norb nk (H0 s)) -> (forall s, khermitian norb nk (S s)) -> (forall s, normalised norb nk (S s) (wf s)) ->
  (forall J K, (J < N)%nat -> (K < N)%nat -> G 0 J K = G 0 K J /\ P 0 J K = P 0 K J) ->
  (forall k a, (k < nk)%nat -> (a < norb)%nat -> vector_derivative norb (fun s => wf s k a) 0 (wf' k a)) ->
  (forall k, (k < nk)%nat -> matrix_derivative norb (fun s => H0 s k) 0 (moved_matrix o1 no I (dH0 k))) ->
  (forall k, (k < nk)%nat -> matrix_derivative norb (fun s => S s k) 0 (moved_matrix o1 no I (dS k))) ->
  (forall J K, (J < N)%nat -> (K < N)%nat -> derivable_pt_lim (fun s => G s J K) 0 (moved_gamma I dG J K)) ->
  (forall J K, (J < N)%nat -> (K < N)%nat -> derivable_pt_lim (fun s => P s J K) 0 (moved_gamma I dP J K)) ->
  let dq := dq_states norb nk o1 no val wk (wf 0) f (S 0) in
  let h1 := construct_h1 N o1 no (eps_states norb N nk o1 no val wk (wf 0) f (S 0) (G 0) (P 0)) (fun _ => 0) in
  (forall k a, (k < nk)%nat -> (a < norb)%nat -> eigenstate norb (H0 0 k) (S 0 k) h1 (wf 0 k a) (e k a)) ->
  derivable_pt_lim (fun s => scc_energy norb N nk o1 no val wk (wf s) f (H0 s) (S s) (G s) (P s)) 0
    (- (band_structure_force norb nk o1 no wk (dH_scc true h1 dH0 dS) dS (krho norb (wf 0) f) (krhoe norb (wf 0) f e) I
        + gamma_force N true dq dG (fun J => rsum N (fun K => dq K * dP J K)) I)).
Proof. exact scc_force. Qed.
Theorem C76_forces_external_partial : forall norb N nk o1 no val wk (wf : R -> nat -> nat -> nat -> cplx) f e (H0 S : R -> kmatrix) (G P : R -> nat -> nat -> R) ext wf' dH0 dS dG dP I,
  layout norb N o1 no -> (I < N)%nat ->
  (forall s, khermitian norb nk (H0 s)) -> (forall s, khermitian norb nk (S s)) -> (forall s, normalised norb nk (S s) (wf s)) ->
  (forall J K, (J < N)%nat -> (K < N)%nat -> G 0 J K = G 0 K J /\ P 0 J K = P 0 K J) -> ((forall J, (J < N)%nat -> ext J = 0) \/ exists J, (J < N)%nat /\ / 10 ^ 12 < Rabs (ext J)) ->
  (forall k a, (k < nk)%nat -> (a < norb)%nat -> vector_derivative norb (fun s => wf s k a) 0 (wf' k a)) ->
  (forall k, (k < nk)%nat -> matrix_derivative norb (fun s => H0 s k) 0 (moved_matrix o1 no I (dH0 k))) ->
  (forall k, (k < nk)%nat -> matrix_derivative norb (fun s => S s k) 0 (moved_matrix o1 no I (dS k))) ->
  (forall J K, (J < N)%nat -> (K < N)%nat -> derivable_pt_lim (fun s => G s J K) 0 (moved_gamma I dG J K)) ->
  (forall J K, (J < N)%nat -> (K < N)%nat -> derivable_pt_lim (fun s => P s J K) 0 (moved_gamma I dP J K)) ->
  let dq := dq_states norb nk o1 no val wk (wf 0) f (S 0) in
  let h1 := construct_h1 N o1 no (eps_states norb N nk o1 no val wk (wf 0) f (S 0) (G 0) (P 0)) ext in
  (forall k a, (k < nk)%nat -> (a < norb)%nat -> eigenstate norb (H0 0 k) (S 0 k) h1 (wf 0 k a) (e k a)) ->
  derivable_pt_lim (fun s => scc_energy norb N nk o1 no val wk (wf s) f (H0 s) (S s) (G s) (P s)
      - rsum N (fun J => ext J * atom_mulliken norb nk o1 no wk (krho norb (wf s) f) (S s) J)) 0
    (- (band_structure_force norb nk o1 no wk (dH_scc true h1 dH0 dS) dS (krho norb (wf 0) f) (krhoe norb (wf 0) f e) I
        + gamma_force N true dq dG (fun J => rsum N (fun K => dq K * dP J K)) I)).
Proof. exact scc_force_ext. Qed.
Theorem C76_forces_no_scc_partial : forall norb N nk o1 no wk (wf : R -> nat -> nat -> nat -> cplx) f e (H0 S : R -> kmatrix) wf' dH0 dS I,
  layout norb N o1 no -> (I < N)%nat ->
  khermitian norb nk (H0 0) -> khermitian norb nk (S 0) -> (forall s, normalised norb nk (S s) (wf s)) ->
  (forall k a, (k < nk)%nat -> (a < norb)%nat -> vector_derivative norb (fun s => wf s k a) 0 (wf' k a)) ->
  (forall k, (k < nk)%nat -> matrix_derivative norb (fun s => H0 s k) 0 (moved_matrix o1 no I (dH0 k))) ->
  (forall k, (k < nk)%nat -> matrix_derivative norb (fun s => S s k) 0 (moved_matrix o1 no I (dS k))) ->
  (forall k a, (k < nk)%nat -> (a < norb)%nat -> eigenstate norb (H0 0 k) (S 0 k) (fun _ _ => 0) (wf 0 k a) (e k a)) ->
  derivable_pt_lim (fun s => fst (ebs_c norb nk wk (krho norb (wf s) f) (H0 s))) 0
    (- band_structure_force norb nk o1 no wk (dH_scc false (fun _ _ => 0) dH0 dS) dS (krho norb (wf 0) f) (krhoe norb (wf 0) f e) I).
Proof. exact nonscc_force. Qed.
(** changing occupations; case: dimer in RhoProofs7 *)
Theorem C76_occupations : forall norb N nk o1 no val wk (wf : R -> nat -> nat -> nat -> cplx) (f : R -> nat -> nat -> R) f' e (H0 S : R -> kmatrix) (G P : R -> nat -> nat -> R) wf' dH0 dS dG dP I,
  layout norb N o1 no -> (I < N)%nat ->
  (forall s, khermitian norb nk (H0 s)) -> (forall s, khermitian norb nk (S s)) -> (forall s, normalised norb nk (S s) (wf s)) ->
  (forall J K, (J < N)%nat -> (K < N)%nat -> G 0 J K = G 0 K J /\ P 0 J K = P 0 K J) ->
  (forall k a, (k < nk)%nat -> (a < norb)%nat -> vector_derivative norb (fun s => wf s k a) 0 (wf' k a)) ->
  (forall k a, (k < nk)%nat -> (a < norb)%nat -> derivable_pt_lim (fun s => f s k a) 0 (f' k a)) ->
  (forall k, (k < nk)%nat -> matrix_derivative norb (fun s => H0 s k) 0 (moved_matrix o1 no I (dH0 k))) ->
  (forall k, (k < nk)%nat -> matrix_derivative norb (fun s => S s k) 0 (moved_matrix o1 no I (dS k))) ->
  (forall J K, (J < N)%nat -> (K < N)%nat -> derivable_pt_lim (fun s => G s J K) 0 (moved_gamma I dG J K)) ->
  (forall J K, (J < N)%nat -> (K < N)%nat -> derivable_pt_lim (fun s => P s J K) 0 (moved_gamma I dP J K)) ->
  let dq := dq_states norb nk o1 no val wk (wf 0) (f 0) (S 0) in
  let h1 := construct_h1 N o1 no (eps_states norb N nk o1 no val wk (wf 0) (f 0) (S 0) (G 0) (P 0)) (fun _ => 0) in
  (forall k a, (k < nk)%nat -> (a < norb)%nat -> eigenstate norb (H0 0 k) (S 0 k) h1 (wf 0 k a) (e k a)) ->
  derivable_pt_lim (fun s => scc_energy norb N nk o1 no val wk (wf s) (f s) (H0 s) (S s) (G s) (P s)) 0
    (- (band_structure_force norb nk o1 no wk (dH_scc true h1 dH0 dS) dS (krho norb (wf 0) (f 0)) (krhoe norb (wf 0) (f 0) e) I
        + gamma_force N true dq dG (fun J => rsum N (fun K => dq K * dP J K)) I) + state_sum norb nk wk f' e).
Proof. exact scc_force_occ0. Qed.
Theorem C76_free_energy : forall MAXE norb N nk o1 no val wk width mu (wf : R -> nat -> nat -> nat -> cplx) (f : R -> nat -> nat -> R) f' e (H0 S : R -> kmatrix) (G P : R -> nat -> nat -> R) wf' dH0 dS dG dP I c,
  layout norb N o1 no -> (I < N)%nat -> 0 < width ->
  (forall s, khermitian norb nk (H0 s)) -> (forall s, khermitian norb nk (S s)) -> (forall s, normalised norb nk (S s) (wf s)) ->
  (forall J K, (J < N)%nat -> (K < N)%nat -> G 0 J K = G 0 K J /\ P 0 J K = P 0 K J) ->
  (forall k a, (k < nk)%nat -> (a < norb)%nat -> vector_derivative norb (fun s => wf s k a) 0 (wf' k a)) ->
  (forall k a, (k < nk)%nat -> (a < norb)%nat -> derivable_pt_lim (fun s => f s k a) 0 (f' k a)) ->
  (forall k, (k < nk)%nat -> matrix_derivative norb (fun s => H0 s k) 0 (moved_matrix o1 no I (dH0 k))) ->
  (forall k, (k < nk)%nat -> matrix_derivative norb (fun s => S s k) 0 (moved_matrix o1 no I (dS k))) ->
  (forall J K, (J < N)%nat -> (K < N)%nat -> derivable_pt_lim (fun s => G s J K) 0 (moved_gamma I dG J K)) ->
  (forall J K, (J < N)%nat -> (K < N)%nat -> derivable_pt_lim (fun s => P s J K) 0 (moved_gamma I dP J K)) ->
  (forall s, filling norb nk wk (f s) = c) ->
  (forall k a, (k < nk)%nat -> (a < norb)%nat -> (e k a - mu) / width < MAXE /\ f 0 k a = fermi MAXE width (e k a) mu) ->
  let dq := dq_states norb nk o1 no val wk (wf 0) (f 0) (S 0) in
  let h1 := construct_h1 N o1 no (eps_states norb N nk o1 no val wk (wf 0) (f 0) (S 0) (G 0) (P 0)) (fun _ => 0) in
  (forall k a, (k < nk)%nat -> (a < norb)%nat -> eigenstate norb (H0 0 k) (S 0 k) h1 (wf 0 k a) (e k a)) ->
  derivable_pt_lim (fun s => scc_energy norb N nk o1 no val wk (wf s) (f s) (H0 s) (S s) (G s) (P s) - width * fermi_entropy norb nk wk (f s)) 0
    (- (band_structure_force norb nk o1 no wk (dH_scc true h1 dH0 dS) dS (krho norb (wf 0) (f 0)) (krhoe norb (wf 0) (f 0) e) I
        + gamma_force N true dq dG (fun J => rsum N (fun K => dq K * dP J K)) I)).
Proof. exact scc_free_energy. Qed.
Theorem C76_free_energy_no_scc : forall MAXE norb N nk o1 no wk width mu (wf : R -> nat -> nat -> nat -> cplx) (f : R -> nat -> nat -> R) f' e (H0 S : R -> kmatrix) wf' dH0 dS I c,
  layout norb N o1 no -> (I < N)%nat -> 0 < width ->
  khermitian norb nk (H0 0) -> khermitian norb nk (S 0) -> (forall s, normalised norb nk (S s) (wf s)) ->
  (forall k a, (k < nk)%nat -> (a < norb)%nat -> vector_derivative norb (fun s => wf s k a) 0 (wf' k a)) ->
  (forall k a, (k < nk)%nat -> (a < norb)%nat -> derivable_pt_lim (fun s => f s k a) 0 (f' k a)) ->
  (forall k, (k < nk)%nat -> matrix_derivative norb (fun s => H0 s k) 0 (moved_matrix o1 no I (dH0 k))) ->
  (forall k, (k < nk)%nat -> matrix_derivative norb (fun s => S s k) 0 (moved_matrix o1 no I (dS k))) ->
  (forall s, filling norb nk wk (f s) = c) ->
  (forall k a, (k < nk)%nat -> (a < norb)%nat -> (e k a - mu) / width < MAXE /\ f 0 k a = fermi MAXE width (e k a) mu) ->
  (forall k a, (k < nk)%nat -> (a < norb)%nat -> eigenstate norb (H0 0 k) (S 0 k) (fun _ _ => 0) (wf 0 k a) (e k a)) ->
  derivable_pt_lim (fun s => fst (ebs_c norb nk wk (krho norb (wf s) (f s)) (H0 s)) - width * fermi_entropy norb nk wk (f s)) 0
    (- band_structure_force norb nk o1 no wk (dH_scc false (fun _ _ => 0) dH0 dS) dS (krho norb (wf 0) (f 0)) (krhoe norb (wf 0) (f 0) e) I).
Proof. exact nonscc_free_energy. Qed.
Theorem C76_energy_refuted :
  forall M, 2 < M -> exists norb N nk o1 no wk width mu (wf : R -> nat -> nat -> nat -> cplx) (f e : R -> nat -> nat -> R) (H0 S : R -> kmatrix) dH0 dS I c,
  layout norb N o1 no /\ (I < N)%nat /\ 0 < width /\
  (forall s, khermitian norb nk (H0 s)) /\ (forall s, khermitian norb nk (S s)) /\ (forall s, normalised norb nk (S s) (wf s)) /\
  (forall k, (k < nk)%nat -> matrix_derivative norb (fun s => H0 s k) 0 (moved_matrix o1 no I (dH0 k))) /\
  (forall k, (k < nk)%nat -> matrix_derivative norb (fun s => S s k) 0 (moved_matrix o1 no I (dS k))) /\
  (forall s k a, (k < nk)%nat -> (a < norb)%nat -> eigenstate norb (H0 s k) (S s k) (fun _ _ => 0) (wf s k a) (e s k a)) /\
  (forall s k a, (k < nk)%nat -> (a < norb)%nat -> f s k a = fermi M width (e s k a) mu) /\ (forall s, filling norb nk wk (f s) = c) /\
  exists d, derivable_pt_lim (fun s => fst (ebs_c norb nk wk (krho norb (wf s) (f s)) (H0 s))) 0 d /\
    d < - band_structure_force norb nk o1 no wk (dH_scc false (fun _ _ => 0) dH0 dS) dS (krho norb (wf 0) (f 0)) (krhoe norb (wf 0) (f 0) (e 0)) I.
Proof. exact energy_not_gradient. Qed.
(** C77 *)
Theorem C77_h1 : forall norb N o1 no eps ext mu nu I J,
  layout norb N o1 no -> (I < N)%nat -> (J < N)%nat ->
  belongs o1 no mu I -> belongs o1 no nu J ->
  ((forall J, (J < N)%nat -> ext J = 0) \/ exists J, (J < N)%nat /\ / 10 ^ 12 < Rabs (ext J)) ->
  construct_h1 N o1 no eps ext mu nu = ((eps I - ext I) + (eps J - ext J)) / 2.
Proof. exact h1_average. Qed.
Theorem C77_potential : forall N G P dq K,
  (forall I J, (I < N)%nat -> (J < N)%nat -> G I J + P I J = G J I + P J I) -> (K < N)%nat ->
  let energy q := coulomb_energy N true q (epsilon N G (fun I => rsum N (fun J => P I J * q J)) q) in
  derivable_pt_lim (fun s => energy (fun I => if (I =? K)%nat then dq I + s else dq I)) 0 (epsilon N G (fun I => rsum N (fun J => P I J * dq J)) dq K).
Proof. exact coulomb_gradient. Qed.
Theorem C77_forces_cancel : forall N SCC dq dG dP,
  (forall I J, (I < N)%nat -> (J < N)%nat -> dG I J + dP I J = - (dG J I + dP J I)) ->
  rsum N (gamma_force N SCC dq dG (fun I => rsum N (fun J => dq J * dP I J))) = 0.
Proof. exact gamma_force_total. Qed.
(** C78.  Cases: mayer_case, x_orth *)
Theorem C78_symmetric : forall norb nk o1 no wk rho S I J,
  mayer norb nk o1 no wk rho S I J = mayer norb nk o1 no wk rho S J I.
Proof. exact mayer_sym. Qed.
Theorem C78_valence : forall norb N nk o1 no wk wf f S I (b : nat -> R),
  layout norb N o1 no -> orthonormal norb nk S wf ->
  (forall k a, (k < nk)%nat -> (a < norb)%nat -> f k a = 0 \/ f k a = 2) -> (I < N)%nat ->
  (forall J, (J < N)%nat -> mayer norb nk o1 no wk (krho norb wf f) S I J = Some (b J)) ->
  rsum N b = 2 * atom_mulliken norb nk o1 no wk (krho norb wf f) S I.
Proof. exact mayer_valence. Qed.
Theorem C78_imaginary_refuted :
  exists wf f S, khermitian 2 1 S /\ orthonormal 2 1 S wf /\ (forall k a, f k a = 0 \/ f k a = 2) /\
  mayer 2 1 x_o1 x_no x_wk (krho 2 wf f) S 0 1 = None.
Proof. exact mayer_fails. Qed.
(** C79 *)
Theorem C79_orbitals : forall norb HSk w v,
  hermitian norb HSk -> cpair_sum norb (cov_orbitals HSk w v) = cov_default norb HSk w v.
Proof. exact cov_orbitals_total. Qed.
Theorem C79_atoms : forall norb N o1 no HSk w v,
  layout norb N o1 no -> hermitian norb HSk ->
  cpair_sum N (cov_atoms o1 no HSk w v) = cov_default norb HSk w v.
Proof. exact cov_atoms_total. Qed.
Theorem C79_angmom : forall norb HSk w v lorbs,
  hermitian norb HSk ->
  Permutation (lorbs 0%nat ++ lorbs 1%nat ++ lorbs 2%nat) (seq 0 norb) ->
  lorbs 0%nat <> [] -> lorbs 1%nat <> [] -> lorbs 2%nat <> [] ->
  exists e, (forall i j, (i < 3)%nat -> (j < 3)%nat -> cov_angmom HSk w v lorbs i j = Some (e i j)) /\
  cpair_sum 3 e = cov_default norb HSk w v.
Proof. exact cov_angmom_total. Qed.
Theorem C79_occupied : forall norb nk wk wf f H0 S epsm,
  khermitian norb nk S ->
  rsum nk (fun k => rsum norb (fun a => f k a * fst (cov_default norb (HS H0 S epsm k) (wk k) (wf k a)))) =
  fst (ebs_c norb nk wk (krho norb wf f) H0) - rsum norb (fun mu => epsm mu * basis_mulliken norb nk wk (krho norb wf f) S mu).
Proof. exact cov_occupied. Qed.
(** without orbitals of one of two different angular momenta an exception is raised instead of returning zeros *)
Theorem C79_angmom_empty_error : forall HSk w v lorbs i j,
  i <> j -> lorbs i = [] \/ lorbs j = [] -> cov_angmom HSk w v lorbs i j = None.
Proof. exact cov_angmom_empty. Qed.
Print Assumptions C37_atoms.
Print Assumptions C37_charges.
Print Assumptions C37_charges_error.
Print Assumptions C37_angmom.
Print Assumptions C37_wf_atoms.
Print Assumptions C37_wf_angmom.
Print Assumptions C37_basis_from_states.
Print Assumptions C37_atom_from_states.
Print Assumptions C37_atoms_mulliken_refuted.
Print Assumptions C38_decomposition.
Print Assumptions C74_hermitian.
Print Assumptions C74_electrons.
Print Assumptions C74_band_energy.
Print Assumptions C74_levels.
Print Assumptions C74_imaginary_refuted.
Print Assumptions C75_guess.
Print Assumptions C75_sane.
Print Assumptions C76_forces_partial.
Print Assumptions C76_forces_external_partial.
Print Assumptions C76_forces_no_scc_partial.
Print Assumptions C76_occupations.
Print Assumptions C76_free_energy.
Print Assumptions C76_free_energy_no_scc.
Print Assumptions C76_energy_refuted.
Print Assumptions C77_h1.
Print Assumptions C77_potential.
Print Assumptions C77_forces_cancel.
Print Assumptions C78_symmetric.
Print Assumptions C78_valence.
Print Assumptions C78_imaginary_refuted.
Print Assumptions C79_orbitals.
Print Assumptions C79_atoms.
Print Assumptions C79_angmom.
Print Assumptions C79_occupied.
Print Assumptions C79_angmom_empty_error.
