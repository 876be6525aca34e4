From Coq Require Import Reals ZArith List Bool Arith Permutation.
From Verif Require Import Vec GeomModel PairModel PairSpec CoulModel GamModel GamSpec GamProofs GamProofs2 GamProofs3 GamProofs4 GamProofs5 GamProofs6.
Import ListNotations.
Open Scope R_scope.

(** C81.  Cases: chain_complete in GamProofs6 *)
Theorem C81_neighbour_list : forall N r tr0 rot cutoff s l,
  get_neighbours N r tr0 rot cutoff s = Some l ->
  exists L, NoDup L /\ (forall x, In x L <-> scanned s (fst (fst x)) /\ close_pair N r tr0 rot cutoff x) /\ Forall2 (entry_of r tr0 rot) L l.
Proof. exact nbs_list. Qed.
Theorem C81_runtime_error : forall N r tr0 rot cutoff s,
  get_neighbours N r tr0 rot cutoff s = None <-> cutoff = None /\ is_cluster s = false.
Proof. exact nbs_none. Qed.
Theorem C81_complete : forall N r a1 a2 a3 b1 b2 b3 k s1 s2 s3 c i j,
  dual a1 a2 a3 b1 b2 b3 ->
  narrow s1 b1 k -> narrow s2 b2 k -> narrow s3 b3 k ->
  (forall i, (i < N)%nat -> (infinite s1 = true -> 0 <= vdot b1 (r i) < 1) /\ (infinite s2 = true -> 0 <= vdot b2 (r i) < 1) /\ (infinite s3 = true -> 0 <= vdot b3 (r i) < 1)) ->
  is_image (s1, s2, s3) c -> close_pair N r (lattice a1 a2 a3) (fun _ => eye) (Some k) (c, i, j) -> scanned (s1, s2, s3) c.
Proof. exact nbs_complete. Qed.
(** the docstring says that the normal vector points to the neighbour: it points away from it *)
Theorem C81_direction_refuted :
  exists (N : nat) (r : nat -> v3) (l : list neighbour) (b : neighbour),
  get_neighbours N r (fun _ => vzero) (fun _ => eye) None one_cell = Some l /\ In b l /\ 0 < nb_d b /\
  vadd (r (nb_i b)) (vscale (nb_d b) (nb_n b)) <> r (nb_j b).
Proof. exact nb_direction_refuted. Qed.
(** images further than five cells away are missed, even if closer than the cutoff *)
Theorem C81_scan_refuted :
  exists (N : nat) (r : nat -> v3) (k : R) (l : list neighbour) (x : cell * nat * nat),
  get_neighbours N r (lattice e1 e2 e3) (fun _ => eye) (Some k) along_x = Some l /\ is_image along_x (fst (fst x)) /\
  close_pair N r (lattice e1 e2 e3) (fun _ => eye) (Some k) x /\ forall b, In b l -> ~ entry_of r (lattice e1 e2 e3) (fun _ => eye) x b.
Proof. exact nb_scan_refuted. Qed.
(** C82.  Case: contact_C_O *)
Theorem C82_slater_symmetric : forall ti tj d,
  0 < ti -> 0 < tj -> slater_term ti tj d = slater_term tj ti d.
Proof. exact slater_sym. Qed.
Theorem C82_slater_derivative : forall ti tj d,
  0 < ti -> 0 < tj -> 0 < d -> derivable_pt_lim (fun t => fst (slater_term ti tj t)) d (- snd (slater_term ti tj d)).
Proof. exact slater_D. Qed.
Theorem C82_slater_contact : forall ti tj,
  0 < ti -> 0 < tj -> tends_at_0 (fun d => 1 / d + fst (slater_term ti tj d)) (contact ti tj).
Proof. exact slater_contact. Qed.
Theorem C82_slater_onsite : forall U,
  0 < U -> contact (tau U) (tau U) = U.
Proof. exact contact_U. Qed.
Theorem C82_slater_bounds : forall ti tj d,
  0 < ti -> 0 < tj -> Rabs (ti - tj) < / 10 ^ 6 -> 0 < d ->
  0 < 1 / d + fst (slater_term ti tj d) < 1 / d /\ 1 / d + fst (slater_term ti tj d) <= contact ti tj.
Proof. exact slater_bounds. Qed.
Theorem C82_slater_errors : forall Bohr N r tr0 rot s U cutoff goal,
  (0 < N)%nat ->
  ((forall i, (i < N)%nat -> 0 < U i) -> succeeds (slater_gamma Bohr N r tr0 rot s U cutoff goal)) /\
  ((exists i, (i < N)%nat /\ U i <= 0) -> slater_gamma Bohr N r tr0 rot s U cutoff goal = GValueError).
Proof. exact slater_errors. Qed.
(** C83.  erfc_exists in GamProofs5 gives a function with is_erfc *)
Theorem C83_gauss_symmetric : forall erfc fi fj d,
  gauss_term erfc fi fj d = gauss_term erfc fj fi d.
Proof. exact gauss_sym. Qed.
Theorem C83_gauss_derivative : forall erfc fi fj d,
  is_erfc erfc -> 0 < d -> derivable_pt_lim (fun t => fst (gauss_term erfc fi fj t)) d (- snd (gauss_term erfc fi fj d)).
Proof. exact gauss_D. Qed.
Theorem C83_gauss_contact : forall erfc fi fj,
  is_erfc erfc -> tends_at_0 (fun d => 1 / d + fst (gauss_term erfc fi fj d)) (2 / sqrt PI * gauss_const fi fj).
Proof. exact gauss_contact. Qed.
Theorem C83_gauss_onsite : forall U,
  0 < U -> 2 / sqrt PI * gauss_const (default_FWHM U) (default_FWHM U) = U.
Proof. exact gauss_onsite. Qed.
Theorem C83_gauss_bounds : forall erfc fi fj d,
  is_erfc erfc -> fi <> 0 -> 0 < d ->
  0 < 1 / d + fst (gauss_term erfc fi fj d) <= 2 / sqrt PI * gauss_const fi fj.
Proof. exact gauss_bounds. Qed.
Theorem C83_gauss_errors : forall erfc Bohr N r tr0 rot s U F cutoff goal,
  (0 < N)%nat ->
  ((forall i, (i < N)%nat -> 0 < F i) -> succeeds (gauss_gamma erfc Bohr N r tr0 rot s U F cutoff goal)) /\
  ((forall i, (i < N)%nat -> F i <= 0) -> gauss_gamma erfc Bohr N r tr0 rot s U F cutoff goal = GValueError).
Proof. exact gauss_errors. Qed.
(** C84.  Cases: dimer_chain_regular, chain_bravais, dimer_chain_forces *)
Theorem C84_slater_G_symmetric : forall Bohr N r a1 a2 a3 s U cutoff goal i j,
  (0 < N)%nat -> bravais_ranges s -> (forall i, (i < N)%nat -> 0 < U i) -> (i < N)%nat -> (j < N)%nat ->
  G_of (slater_gamma Bohr N r (lattice a1 a2 a3) (fun _ => eye) s U cutoff goal) i j = G_of (slater_gamma Bohr N r (lattice a1 a2 a3) (fun _ => eye) s U cutoff goal) j i.
Proof. exact slater_symmetric_bravais. Qed.
Theorem C84_gauss_G_symmetric : forall erfc Bohr N r a1 a2 a3 s U F cutoff goal i j,
  (0 < N)%nat -> bravais_ranges s -> is_erfc erfc -> (forall i, (i < N)%nat -> 0 < F i) -> (i < N)%nat -> (j < N)%nat ->
  G_of (gauss_gamma erfc Bohr N r (lattice a1 a2 a3) (fun _ => eye) s U F cutoff goal) i j = G_of (gauss_gamma erfc Bohr N r (lattice a1 a2 a3) (fun _ => eye) s U F cutoff goal) j i.
Proof. exact gauss_symmetric_bravais. Qed.
Theorem C84_slater_forces : forall Bohr N r u a1 a2 a3 s U q cutoff goal,
  (0 < N)%nat -> 0 < Bohr -> bravais_ranges s -> (forall i, (i < N)%nat -> 0 < U i) ->
  regular N r (lattice a1 a2 a3) (fun _ => eye) s (used_cutoff s cutoff (slater_cutoff goal (rmin (N - 1) U))) ->
  derivable_pt_lim (fun t => correction_energy N q (G_of (slater_gamma Bohr N (moved r u t) (lattice a1 a2 a3) (fun _ => eye) s U cutoff goal))) 0
    (- rsum N (fun i => vdot (correction_force N q (dG_of (slater_gamma Bohr N r (lattice a1 a2 a3) (fun _ => eye) s U cutoff goal)) i) (u i)) / Bohr).
Proof. exact slater_forces_bravais. Qed.
Theorem C84_gauss_forces : forall erfc Bohr N r u a1 a2 a3 s U F q cutoff goal,
  (0 < N)%nat -> 0 < Bohr -> bravais_ranges s -> is_erfc erfc -> (forall i, (i < N)%nat -> 0 < F i) ->
  regular N r (lattice a1 a2 a3) (fun _ => eye) s (used_cutoff s cutoff (gauss_cutoff goal (rmaxn (N - 1) F))) ->
  derivable_pt_lim (fun t => correction_energy N q (G_of (gauss_gamma erfc Bohr N (moved r u t) (lattice a1 a2 a3) (fun _ => eye) s U F cutoff goal))) 0
    (- rsum N (fun i => vdot (correction_force N q (dG_of (gauss_gamma erfc Bohr N r (lattice a1 a2 a3) (fun _ => eye) s U F cutoff goal)) i) (u i)) / Bohr).
Proof. exact gauss_forces_bravais. Qed.
(** any container whose visited images are closed under inversion *)
Theorem C84_slater_G_symmetric_closed : forall Bohr N r tr0 rot s U cutoff goal i j,
  (0 < N)%nat -> 
  (forall k cs, scan k s = Some cs -> exists inv, closed_images cs tr0 rot inv) -> (forall i, (i < N)%nat -> 0 < U i) -> (i < N)%nat -> (j < N)%nat ->
  G_of (slater_gamma Bohr N r tr0 rot s U cutoff goal) i j = G_of (slater_gamma Bohr N r tr0 rot s U cutoff goal) j i.
Proof. exact slater_symmetric_closed. Qed.
Theorem C84_gauss_G_symmetric_closed : forall erfc Bohr N r tr0 rot s U F cutoff goal i j,
  (0 < N)%nat -> 
  (forall k cs, scan k s = Some cs -> exists inv, closed_images cs tr0 rot inv) -> is_erfc erfc -> (forall i, (i < N)%nat -> 0 < F i) -> (i < N)%nat -> (j < N)%nat ->
  G_of (gauss_gamma erfc Bohr N r tr0 rot s U F cutoff goal) i j = G_of (gauss_gamma erfc Bohr N r tr0 rot s U F cutoff goal) j i.
Proof. exact gauss_symmetric_closed. Qed.
Theorem C84_slater_forces_closed : forall Bohr N r u tr0 rot s U q cutoff goal,
  (0 < N)%nat -> 0 < Bohr ->
  (forall k cs, scan k s = Some cs -> exists inv, closed_images cs tr0 rot inv) -> (forall i, (i < N)%nat -> 0 < U i) ->
  regular N r tr0 rot s (used_cutoff s cutoff (slater_cutoff goal (rmin (N - 1) U))) ->
  derivable_pt_lim (fun t => correction_energy N q (G_of (slater_gamma Bohr N (moved r u t) tr0 rot s U cutoff goal))) 0
    (- rsum N (fun i => vdot (correction_force N q (dG_of (slater_gamma Bohr N r tr0 rot s U cutoff goal)) i) (u i)) / Bohr).
Proof. exact slater_forces_closed. Qed.
Theorem C84_gauss_forces_closed : forall erfc Bohr N r u tr0 rot s U F q cutoff goal,
  (0 < N)%nat -> 0 < Bohr ->
  (forall k cs, scan k s = Some cs -> exists inv, closed_images cs tr0 rot inv) -> is_erfc erfc -> (forall i, (i < N)%nat -> 0 < F i) ->
  regular N r tr0 rot s (used_cutoff s cutoff (gauss_cutoff goal (rmaxn (N - 1) F))) ->
  derivable_pt_lim (fun t => correction_energy N q (G_of (gauss_gamma erfc Bohr N (moved r u t) tr0 rot s U F cutoff goal))) 0
    (- rsum N (fun i => vdot (correction_force N q (dG_of (gauss_gamma erfc Bohr N r tr0 rot s U F cutoff goal)) i) (u i)) / Bohr).
Proof. exact gauss_forces_closed. Qed.
(** C85 *)
Theorem C85_slater_goal_refuted : forall Bohr,
  0.52 < Bohr < 0.54 -> exists U d, 0 < U /\ 0 < d /\ slater_cutoff 12 U < d * Bohr /\ / 10 ^ 12 < Rabs (fst (slater_term (tau U) (tau U) d)).
Proof. exact slater_goal_refuted. Qed.
Theorem C85_gauss_goal_refuted : forall erfc Bohr,
  is_erfc erfc -> 0.52 < Bohr < 0.54 -> exists F d, 0 < F /\ 0 < d /\ gauss_cutoff 12 F < d * Bohr /\ / 10 ^ 12 < Rabs (fst (gauss_term erfc F F d)).
Proof. exact gauss_goal_refuted. Qed.
Print Assumptions C81_neighbour_list.
Print Assumptions C81_runtime_error.
Print Assumptions C81_complete.
Print Assumptions C81_direction_refuted.
Print Assumptions C81_scan_refuted.
Print Assumptions C82_slater_symmetric.
Print Assumptions C82_slater_derivative.
Print Assumptions C82_slater_contact.
Print Assumptions C82_slater_onsite.
Print Assumptions C82_slater_bounds.
Print Assumptions C82_slater_errors.
Print Assumptions C83_gauss_symmetric.
Print Assumptions C83_gauss_derivative.
Print Assumptions C83_gauss_contact.
Print Assumptions C83_gauss_onsite.
Print Assumptions C83_gauss_bounds.
Print Assumptions C83_gauss_errors.
Print Assumptions C84_slater_G_symmetric.
Print Assumptions C84_gauss_G_symmetric.
Print Assumptions C84_slater_forces.
Print Assumptions C84_gauss_forces.
Print Assumptions C84_slater_G_symmetric_closed.
Print Assumptions C84_gauss_G_symmetric_closed.
Print Assumptions C84_slater_forces_closed.
Print Assumptions C84_gauss_forces_closed.
Print Assumptions C85_slater_goal_refuted.
Print Assumptions C85_gauss_goal_refuted.
