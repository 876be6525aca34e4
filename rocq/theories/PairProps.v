(** Theorems on pair interactions (C27 - C31). *)
From Coq Require Import Reals ZArith List Bool Arith String Ascii.
From Verif Require Import Vec GeomModel PairModel PairSpec PairProofs PairProofs2 PairProofs3.
Import ListNotations.
Open Scope R_scope.

(** C27: along every displacement s*u of the atoms (all symmetry images following) the derivative of the
    repulsive energy (eV) is minus the work of the repulsive forces (Hartree/Bohr).  The images are any set of
    rigid operations with their inverses; the two orderings of an element pair have the same table; the table's
    der=1 value is its derivative inside the cutoff; no pair sits exactly at the cutoff.
    Hypotheses met: ex_repulsion_hyps (PairProofs3). *)
Theorem C27_gradient N nimg O t inv sym vrep dvrep rmax Hartree r u E e :
  images nimg O t inv -> 0 <= rmax ->
  (forall i j d, (i < N)%nat -> (j < N)%nat -> dvrep (sym i ++ sym j)%string d = dvrep (sym j ++ sym i)%string d) ->
  (forall i j d, (i < N)%nat -> (j < N)%nat -> 0 < d < rmax ->
     derivable_pt_lim (vrep (sym i ++ sym j)%string) d (dvrep (sym i ++ sym j)%string d)) ->
  (forall i j n, (i < N)%nat -> (j < N)%nat -> (n < nimg)%nat -> dist (place O t r) n i j <> rmax) ->
  0 < e -> (forall s, Rabs s < e -> repulsive_energy N nimg (place O t (moved r u s)) sym vrep rmax Hartree = Some (E s)) ->
  derivable_pt_lim E 0 (- (Hartree * rsum N (fun i => vdot (repulsive_force N nimg (place O t r) sym dvrep rmax i) (u i)))).
Proof. exact (repulsion_gradient N nimg O t inv sym vrep dvrep rmax Hartree r u E e). Qed.
Print Assumptions C27_gradient.

Theorem C27_sum_zero N nimg O t inv sym vrep dvrep rmax Hartree r w :
  images nimg O t inv -> 0 <= rmax -> (forall n, (n < nimg)%nat -> O n = eye) ->
  (forall i j d, (i < N)%nat -> (j < N)%nat -> dvrep (sym i ++ sym j)%string d = dvrep (sym j ++ sym i)%string d) ->
  repulsive_energy N nimg (place O t r) sym vrep rmax Hartree <> None ->
  rsum N (fun i => vdot (repulsive_force N nimg (place O t r) sym dvrep rmax i) w) = 0.
Proof. exact (repulsion_sum_zero N nimg O t inv sym vrep dvrep rmax Hartree r w). Qed.
Print Assumptions C27_sum_zero.

(** the total is Hartree (eV) times the sum over atom pairs i <= j of the pair energies *)
Theorem C27_pairs N nimg O t sym vrep rmax Hartree r x :
  repulsive_energy N nimg (place O t r) sym vrep rmax Hartree = Some x ->
  x = Hartree * rsum N (fun i => rsum N (fun j => if (i <=? j)%nat then pair_repulsive_energy nimg (place O t r) sym vrep rmax i j else 0)).
Proof. exact (repulsion_pairs N nimg O t sym vrep rmax Hartree r x). Qed.
Print Assumptions C27_pairs.

Theorem C27_assertion N nimg Rn sym vrep rmax Hartree :
  repulsive_energy N nimg Rn sym vrep rmax Hartree = None <->
  exists i j n, (i <= j < N)%nat /\ (n < nimg)%nat /\ ~ (i = j /\ n = 0%nat) /\ dist Rn n i j <= rmax /\ dist Rn n i j <= / 10 ^ 10.
Proof. exact (repulsion_error N nimg Rn sym vrep rmax Hartree). Qed.
Print Assumptions C27_assertion.

(** if the two orderings of an element pair are given different tables, forces are not the gradient *)
Theorem C27_different_tables_refuted : exists N nimg O t inv sym vrep dvrep rmax Hartree r u,
  images nimg O t inv /\ 0 <= rmax /\
  (forall s d, derivable_pt_lim (vrep s) d (dvrep s d)) /\
  (forall i j n, (i < N)%nat -> (j < N)%nat -> (n < nimg)%nat -> dist (place O t r) n i j <> rmax) /\
  exists E e, 0 < e /\ (forall s, Rabs s < e -> repulsive_energy N nimg (place O t (moved r u s)) sym vrep rmax Hartree = Some (E s)) /\
  ~ derivable_pt_lim E 0 (- (Hartree * rsum N (fun i => vdot (repulsive_force N nimg (place O t r) sym dvrep rmax i) (u i)))).
Proof. exact asymmetric_tables. Qed.
Print Assumptions C27_different_tables_refuted.

(** C28: potentials given in Hartree and Bohr: after every history of add_pair_potential calls the pair forces
    are minus the gradient of the pair energy (both in atomic units).  The eV/Angstrom branch is refuted below. *)
Theorem C28_gradient_partial Bohr Hartree cs N nimg O t inv sym r u :
  (forall id v e, In (id, v, e) cs -> valid_id id /\ e = false /\ consistent v) ->
  (Z.of_nat N <= 10000)%Z -> (forall i, (i < N)%nat -> symbol (sym i)) -> images nimg O t inv ->
  (forall i j n, (i < N)%nat -> (j < N)%nat -> (n < nimg)%nat -> ~ (i = j /\ n = 0%nat) ->
     0 < dist (place O t r) n i j /\ dist (place O t r) n i j <> rcut (run Bohr Hartree cs)) ->
  derivable_pt_lim (fun s => pp_energy (run Bohr Hartree cs) N nimg (place O t (moved r u s)) sym) 0
    (- rsum N (fun i => vdot (pp_force (run Bohr Hartree cs) N nimg (place O t r) sym i) (u i))).
Proof. exact (pp_forces Bohr Hartree cs N nimg O t inv sym r u). Qed.
Print Assumptions C28_gradient_partial.

(** after every history of calls the interaction of two atoms is the sum of the potential given last for the
    atom pair and the one given last for the element pair (in either order), converted ... *)
Theorem C28_last_given Bohr Hartree cs sym proj i j r : (forall id v e, In (id, v, e) cs -> valid_id id) ->
  (Z.of_nat i < 10000)%Z -> (Z.of_nat j < 10000)%Z -> symbol (sym i) -> symbol (sym j) ->
  full_v (run Bohr Hartree cs) sym proj i j r =
  value_of Bohr Hartree proj (given_last (hits_atoms (Z.of_nat i) (Z.of_nat j)) cs) r +
  value_of Bohr Hartree proj (given_last (hits_elements (sym i) (sym j)) cs) r.
Proof. exact (stored_full Bohr Hartree cs sym proj i j r). Qed.
Print Assumptions C28_last_given.

(** ... and the cutoff is the largest range given (0 at least). *)
Theorem C28_cutoff Bohr Hartree cs :
  (forall id v e, In (id, v, e) cs -> prange (to_atomic Bohr Hartree e v) <= rcut (run Bohr Hartree cs)) /\
  (rcut (run Bohr Hartree cs) = 0 \/ exists id v e, In (id, v, e) cs /\ prange (to_atomic Bohr Hartree e v) = rcut (run Bohr Hartree cs)).
Proof. exact (stored_range Bohr Hartree cs). Qed.
Print Assumptions C28_cutoff.

(** what the eV/Angstrom branch should compute is consistent ... *)
Theorem C28_intended Bohr Hartree p : 0 < Bohr -> consistent p -> consistent (proper_atomic Bohr Hartree p).
Proof. exact (proper_consistent Bohr Hartree p). Qed.
Print Assumptions C28_intended.

(** ... the range is converted like that ... *)
Theorem C28_range Bohr Hartree p : prange (to_atomic Bohr Hartree true p) = prange (proper_atomic Bohr Hartree p).
Proof. exact (range_units Bohr Hartree p). Qed.
Print Assumptions C28_range.

(** ... but the value is not, and the force is not its derivative. *)
Theorem C28_units_refuted Bohr Hartree : 0 < Bohr -> Bohr <> 1 -> 0 < Hartree ->
  exists p d, consistent p /\ 0 < d /\
   pv (to_atomic Bohr Hartree true p) d <> pv p (d * Bohr) / Hartree /\
   ~ derivable_pt_lim (pv (to_atomic Bohr Hartree true p)) d (pd (to_atomic Bohr Hartree true p) d).
Proof. exact (units_wrong Bohr Hartree). Qed.
Print Assumptions C28_units_refuted.

(** C29 *)
Theorem C29_keys_partial i j k l : (0 <= i < 10000)%Z -> (0 <= j)%Z -> (0 <= k < 10000)%Z -> (0 <= l)%Z ->
  ij2s i j = ij2s k l -> i = k /\ j = l.
Proof. exact (keys_injective i j k l). Qed.
Print Assumptions C29_keys_partial.

Theorem C29_keys_refuted : exists i j k l, (0 <= i)%Z /\ (0 <= j)%Z /\ (0 <= k)%Z /\ (0 <= l)%Z /\ (i, j) <> (k, l) /\ ij2s i j = ij2s k l.
Proof. exact keys_collide. Qed.
Print Assumptions C29_keys_refuted.

Theorem C29_symbols s1 s2 s3 s4 : symbol s1 -> symbol s2 -> symbol s3 -> symbol s4 ->
  (s1 ++ s2 = s3 ++ s4)%string -> s1 = s3 /\ s2 = s4.
Proof. exact (symbols_unique s1 s2 s3 s4). Qed.
Print Assumptions C29_symbols.

Theorem C29_separate s1 s2 : symbol s1 -> symbol s2 -> (String.length s1 <= 2)%nat ->
  separate_symbols (s1 ++ s2) = Some (s1, s2).
Proof. exact (separate_spec s1 s2). Qed.
Print Assumptions C29_separate.

(** C30 *)
Theorem C30_symmetric Ca pa na Ra Cb pb nb Rb :
  vdw_coefficients Ca pa na Ra (Some (Cb, pb, nb)) (Some Rb) = vdw_coefficients Cb pb nb Rb (Some (Ca, pa, na)) (Some Ra).
Proof. exact (vdw_coefficients_sym Ca pa na Ra Cb pb nb Rb). Qed.
Print Assumptions C30_symmetric.

Theorem C30_equal_atoms C p n R0 : C <> 0 -> p <> 0 -> R0 <> 0 ->
  vdw_coefficients (Some C) (Some p) n R0 None None = Some (C, R0).
Proof. exact (vdw_coefficients_same C p n R0). Qed.
Print Assumptions C30_equal_atoms.

Theorem C30_radius_between a b : 0 < a -> 0 < b -> Rmin a b <= R0_cross a b <= Rmax a b.
Proof. exact (R0_between a b). Qed.
Print Assumptions C30_radius_between.

Theorem C30_derivative C6 R0 d N M r : (1 <= N)%nat -> (1 <= M)%nat -> 0 < r ->
  derivable_pt_lim (vdw C6 R0 d N M) r (dvdw C6 R0 d N M r).
Proof. exact (vdw_derivative C6 R0 d N M r). Qed.
Print Assumptions C30_derivative.

Theorem C30_bounds C6 R0 d N M r : 0 <= C6 -> 0 < R0 -> 0 <= d -> 0 < r ->
  - (C6 / r ^ 6) <= vdw C6 R0 d N M r <= 0.
Proof. exact (vdw_bounds C6 R0 d N M r). Qed.
Print Assumptions C30_bounds.

(** C31 *)
Theorem C31_p_of_C6 p n : 0 <= n -> 0 <= p -> p_from_C6 (C6_from_p p n) n = p.
Proof. exact (C6_p p n). Qed.
Print Assumptions C31_p_of_C6.

Theorem C31_C6_of_p c n : 0 <= n -> 0 <= c -> C6_from_p (p_from_C6 c n) n = c.
Proof. exact (p_C6 c n). Qed.
Print Assumptions C31_C6_of_p.
