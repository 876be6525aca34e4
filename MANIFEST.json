{
 "claims": [
  {
   "property": "C01",
   "status": "proved",
   "theorems": [
    "C01_answers_belong_to_atoms",
    "C01_energy_is_fresh",
    "C01_forces_are_fresh",
    "C01_no_repeated_solve"
   ],
   "note": "Proved for every call history on an initialised calculator, any solver/energy oracle, for atoms sharing the symmetry ranges and k-points of the initialising atoms (needed: see C51). With SCC the answer is that of a solve of exactly these atoms from some starting charges (band and Coulomb part may come from two such solves)."
  },
  {
   "property": "C02",
   "status": "partial",
   "theorems": [
    "C02_set_atoms_refuted",
    "C02_set_atoms_partial"
   ],
   "note": "False as stated (witness history). Holds if set_atoms(a) is followed at once by solve_ground_state(a)."
  },
  {
   "property": "C03",
   "status": "partial",
   "theorems": [
    "C03_failed_solve_refuted",
    "C03_failure_is_permanent"
   ],
   "note": "False as stated (witness history). Moreover proved: after a raising solve no later solve of new atoms ever succeeds, because the 'solve' timer is left running."
  },
  {
   "property": "C04",
   "status": "partial",
   "theorems": [
    "C04_parameters_frozen",
    "C04_charge_refuted",
    "C04_charge_never_takes_effect"
   ],
   "note": "All keys except 'charge' and 'txt' are frozen; 'charge' is accepted and ignored (refuted)."
  },
  {
   "property": "C05",
   "status": "partial",
   "theorems": [
    "C05_analysis_follows_geometry",
    "C05_grid_refuted"
   ],
   "note": "Holds for Mulliken/DOS/bond analysis; refuted for grids."
  },
  {
   "property": "C06",
   "status": "proved",
   "theorems": [
    "C06_scc_loop_outcomes",
    "C06_nonscc_single",
    "C06_anderson_self_consistent",
    "C06_pulay_self_consistent"
   ],
   "note": "For every mixer state machine and every oracle for diagonalisation and occupation (which may raise). maxiter >= 1 (with maxiter = 0 nothing is solved). Also proved: returned states are self-consistent to the convergence limit with either mixer."
  },
  {
   "property": "C07",
   "status": "partial",
   "theorems": [
    "C07_iteration_info_refuted",
    "C07_iteration_info_swapped"
   ],
   "note": "False: the printed max and min are exchanged (witness; and proved for every history that they are exchanged)."
  },
  {
   "property": "C08",
   "status": "proved",
   "theorems": [
    "C08_anderson_conserves",
    "C08_pulay_conserves",
    "C08_anderson_cycle",
    "C08_pulay_cycle",
    "C08_guess_total"
   ],
   "note": "Anderson: no assumption on the solver. Pulay: inverter returns a right inverse or raises, memory >= 1."
  },
  {
   "property": "C09",
   "status": "proved",
   "theorems": [
    "C09_anderson_chop",
    "C09_pulay_chop"
   ],
   "note": "Any mixer state, chop > 0."
  },
  {
   "property": "C10",
   "status": "proved",
   "theorems": [
    "C10_anderson_accepts",
    "C10_anderson_keeps_fixed_points"
   ],
   "note": "Any mixer state; fixed points under the hypothesis that the solver gives the unique solution or raises."
  },
  {
   "property": "C11",
   "status": "proved",
   "theorems": [
    "C11_anderson_reset",
    "C11_pulay_reset"
   ],
   "note": "Both mixers."
  },
  {
   "property": "C12",
   "status": "proved",
   "theorems": [
    "C12_default",
    "C12_by_name",
    "C12_unknown_name",
    "C12_by_dictionary"
   ],
   "note": "Characters are 8-bit; letter case is ASCII."
  },
  {
   "property": "C13",
   "status": "proved",
   "theorems": [
    "C13_occupations_physical",
    "C13_particle_hole",
    "C13_positive_refuted",
    "C13_fermi_function"
   ],
   "note": "Over R. 'Strictly positive' is refuted at the overflow clamp."
  },
  {
   "property": "C14",
   "status": "proved",
   "theorems": [
    "C14_electron_number",
    "C14_mu_unique"
   ],
   "note": "For any root finder; uniqueness for a positive number of electrons."
  },
  {
   "property": "C15",
   "status": "partial",
   "theorems": [
    "C15_always_found_refuted",
    "C15_found_partial",
    "C15_impossible_fillings_refused"
   ],
   "note": "Refuted as stated (1.9 electrons in one orbital). Proved for fillings between 0.54 and 1.46 electrons per orbital; that the root finder reaches 1e-10 accuracy is an assumption of that theorem."
  },
  {
   "property": "C16",
   "status": "proved",
   "theorems": [
    "C16_mesh_weights",
    "C16_list_weights"
   ],
   "note": "Meshes with spacing above 1e-10."
  },
  {
   "property": "C17",
   "status": "proved",
   "theorems": [
    "C17_points_on_mesh",
    "C17_no_point_lost",
    "C17_weights_count",
    "C17_averages",
    "C17_modulo_period_refuted"
   ],
   "note": "Meshes with spacing above 1e-10, exact inverses. Read modulo 2*pi the uniqueness is refuted."
  },
  {
   "property": "C18",
   "status": "proved",
   "theorems": [
    "C18_identity",
    "C18_composition",
    "C18_doublechiral",
    "C18_slab",
    "C18_slab_translations",
    "C18_twistandturn",
    "C18_sphere_axis",
    "C18_sphere_refuted"
   ],
   "note": "Identity and composition for the seven additive containers; also the relations of DoubleChiral and Slab, TwistAndTurn inside the torus, Sphere about a single axis. Sphere as a whole is not a group action (refuted)."
  },
  {
   "property": "C19",
   "status": "partial",
   "theorems": [
    "C19_rigid_partial",
    "C19_twistandturn_refuted"
   ],
   "note": "All containers but TwistAndTurn, which is refuted: its operation is not a rigid motion and differs from its rotation matrix. Sphere needs a defined axis, Slab the operations its range allows."
  },
  {
   "property": "C20",
   "status": "proved",
   "theorems": [
    "C20_count",
    "C20_each_once"
   ],
   "note": "Wedge, WedgeYAxis and ChiralWedge."
  },
  {
   "property": "C21",
   "status": "partial",
   "theorems": [
    "C21_roundtrip",
    "C21_roundtrip_double",
    "C21_rebuilt_partial",
    "C21_ordinary_cell",
    "C21_crash_refuted",
    "C21_mistaken_refuted",
    "C21_tolerance_refuted"
   ],
   "note": "Round trip proved over R and in IEEE double arithmetic, and for all histories except Slab and WedgeYAxis (see C57). 'Ordinary cells are not mistaken' is refuted: cell[0,0]=12.3454321 raises IndexError, other lengths decode as a container, and the 1e-10 tolerance truncates to the neighbouring type."
  },
  {
   "property": "C22",
   "status": "partial",
   "theorems": [
    "C22_python3_refuted",
    "C22_python2_partial",
    "C22_chiralwedge",
    "C22_wedgeyaxis_refuted",
    "C22_sphere_refuted",
    "C22_others_refuted"
   ],
   "note": "Refuted in Python 3 for every container (AttributeError in container!=None, or an unconditional exception). Python 2: proved for Wedge, Chiral, DoubleChiral, ChiralWedge; WedgeYAxis loses the periodicity along y, Sphere copies nothing but the mode, TwistAndTurn and ChiralGeneral raise."
  },
  {
   "property": "C23",
   "status": "proved",
   "theorems": [
    "C23_partition",
    "C23_inverse",
    "C23_orbital",
    "C23_padded"
   ],
   "note": "Index lists, owner map, orbital data and the nine-column padded table, for every list of atoms with 1, 4 or 9 orbitals."
  },
  {
   "property": "C24",
   "status": "proved",
   "theorems": [
    "C24_bond_frame",
    "C24_frame",
    "C24_rotated",
    "C24_channels_sum",
    "C24_channels_projectors",
    "C24_sigma",
    "C24_lengths"
   ],
   "note": ""
  },
  {
   "property": "C25",
   "status": "proved",
   "theorems": [
    "C25_gradient"
   ],
   "note": ""
  },
  {
   "property": "C26",
   "status": "partial",
   "theorems": [
    "C26_reversed_partial",
    "C26_reversed_refuted"
   ],
   "note": "Holds when the two orderings of the table agree on the integrals between orbitals of equal angular momentum; the code reads them independently and does not check (refuted otherwise)."
  },
  {
   "property": "C27",
   "status": "partial",
   "theorems": [
    "C27_gradient",
    "C27_sum_zero",
    "C27_pairs",
    "C27_assertion",
    "C27_different_tables_refuted"
   ],
   "note": "Proved when both orderings of an element pair have the same table and no pair sits exactly at the cutoff; refuted for different tables (C27_different_tables_refuted). The image set is any set of rigid operations closed under inverse."
  },
  {
   "property": "C28",
   "status": "partial",
   "theorems": [
    "C28_gradient_partial",
    "C28_last_given",
    "C28_cutoff",
    "C28_intended",
    "C28_range",
    "C28_units_refuted"
   ],
   "note": "Hartree/Bohr potentials: forces are the gradient after every call history (indices below 10000, well-formed symbols). The eV/Angstrom branch evaluates v(r/Bohr) instead of v(r*Bohr): refuted (C28_units_refuted)."
  },
  {
   "property": "C29",
   "status": "partial",
   "theorems": [
    "C29_keys_partial",
    "C29_keys_refuted",
    "C29_symbols",
    "C29_separate"
   ],
   "note": "Injective when the first index of each pair is below 10000; refuted beyond that. Symbol keys are uniquely decodable; separate_symbols is right for symbols of at most two letters."
  },
  {
   "property": "C30",
   "status": "proved",
   "theorems": [
    "C30_symmetric",
    "C30_equal_atoms",
    "C30_radius_between",
    "C30_derivative",
    "C30_bounds"
   ],
   "note": "Symmetry, equal-atom reduction, derivative and bounds for all parameters."
  },
  {
   "property": "C31",
   "status": "proved",
   "theorems": [
    "C31_p_of_C6",
    "C31_C6_of_p"
   ],
   "note": "Both directions."
  },
  {
   "property": "C32",
   "status": "partial",
   "theorems": [
    "C32_right_partial",
    "C32_cell_change_refuted",
    "C32_after_error_refuted"
   ],
   "note": "Proved for every history with one cell and no exception; refuted for a changed cell and for a call repeated after an exception."
  },
  {
   "property": "C33",
   "status": "partial",
   "theorems": [
    "C33_bijection",
    "C33_counter",
    "C33_entries_distinct",
    "C33_bounds",
    "C33_lmax0_refuted"
   ],
   "note": "Bijection, counters and all accesses for every l_max >= 1; l_max = 0 overflows (refuted)."
  },
  {
   "property": "C34",
   "status": "partial",
   "theorems": [
    "C34_exact_partial",
    "C34_even_refuted",
    "C34_mixed_depth_refuted",
    "C34_rotations_refuted"
   ],
   "note": "Exactly once for odd n with the same depth in all periodic directions; refuted for even n, for different depths, and for finite symmetry ranges."
  },
  {
   "property": "C35",
   "status": "proved",
   "theorems": [
    "C35_basis_orbital",
    "C35_left_out",
    "C35_slices",
    "C35_partial_grid_odd",
    "C35_partial_grid_centred"
   ],
   "note": "Slices, alignment, the sum over the images, the rough test and the partial grid; the real-valued array is exact for real phases (complex ones: C73). Clipping at +-100 and the padding are not modelled."
  },
  {
   "property": "C36",
   "status": "partial",
   "theorems": [
    "C36_density_single_partial",
    "C36_density_half",
    "C36_density_refuted"
   ],
   "note": "Proved when every occupied state holds one electron; with doubly occupied states the array is exactly half the density. Refuted in general: occupations are not used."
  },
  {
   "property": "C37",
   "status": "partial",
   "theorems": [
    "C37_atoms",
    "C37_charges",
    "C37_charges_error",
    "C37_angmom",
    "C37_wf_atoms",
    "C37_wf_angmom",
    "C37_basis_from_states",
    "C37_atom_from_states",
    "C37_atoms_mulliken_refuted"
   ],
   "note": "All sums proved (atoms, basis functions, angular momenta, single states). Refuted: get_atoms_mulliken returns populations minus valences although get_atom_mulliken returns populations."
  },
  {
   "property": "C38",
   "status": "proved",
   "theorems": [
    "C38_decomposition"
   ],
   "note": "The free-atom term is sum of free populations times on-site energies; the potential of the analysis solver is a parameter, the same as that of the calculator. get_atom_energy is modelled by its real part."
  },
  {
   "property": "C39",
   "status": "proved",
   "theorems": [
    "C39_all_items_assigned",
    "C39_sizes",
    "C39_indices",
    "C39_modes_agree",
    "C39_load_bound",
    "C39_raises"
   ],
   "note": "Float comparison with the average modelled exactly; load sums below 2^53."
  },
  {
   "property": "C40",
   "status": "proved",
   "theorems": [
    "C40_divisors",
    "C40_gcd"
   ],
   "note": "All integers; for negative arguments the result of gcd is correct up to sign."
  },
  {
   "property": "C41",
   "status": "proved",
   "theorems": [
    "C41_rotation",
    "C41_fixes_axis",
    "C41_angles_add",
    "C41_turns"
   ],
   "note": ""
  },
  {
   "property": "C42",
   "status": "proved",
   "theorems": [
    "C42_polar_angle",
    "C42_total",
    "C42_tiny_refuted"
   ],
   "note": "'Outside the numerical zero' is read as: each coordinate is 0 or larger than 1e-16; for smaller coordinates the result can be wrong (refuted variant)."
  },
  {
   "property": "C43",
   "status": "partial",
   "theorems": [
    "C43_nesting_refuted",
    "C43_subtimer_time_refuted",
    "C43_timers_are_stop_watches",
    "C43_hierarchical_accepted"
   ],
   "note": "False as stated: non-nested sequences are accepted (witness). Proved for all sequences: the tree behaves exactly as independent stop-watches, and hierarchical use never raises."
  },
  {
   "property": "C44",
   "status": "partial",
   "theorems": [
    "C44_grid_partial",
    "C44_zero_above_partial",
    "C44_derivative",
    "C44_second_derivative",
    "C44_natural",
    "C44_natural_unique",
    "C44_below",
    "C44_first_point_refuted",
    "C44_zero_below_refuted"
   ],
   "note": "Proved: table values at every grid point but the first, zero above the range, slope and second derivative are true derivatives strictly inside (knots included), second derivatives are the unique natural-spline solution for any increasing grid. Refuted: value at the first grid point and zero below the range (index -1 wraps); C44_below gives what is returned instead. One function at a time, exact arithmetic."
  },
  {
   "property": "C45",
   "status": "partial",
   "theorems": [
    "C45_sec_to_time_int",
    "C45_sec_to_time_partial",
    "C45_sec_to_time_refuted",
    "C45_base_and_extension_partial",
    "C45_base_and_extension_refuted"
   ],
   "note": "Proved for integer seconds; for floats the seconds may read 60 (refuted), total within half a second; file names without a dot refuted."
  },
  {
   "property": "C46",
   "status": "partial",
   "theorems": [
    "C46_kept_and_zero",
    "C46_tail_is_cubic",
    "C46_tail_through_refuted",
    "C46_ends_in_zero_refuted",
    "C46_unbound",
    "C46_short_table"
   ],
   "note": "Kept values, final zero, sign and the exact failure conditions proved. Refuted: for larger exponents m the tail does not pass through the kept points (the fit uses m, the evaluation 2 and 3); a table below 1e-10 keeps a nonzero last value. The function also overwrites the array of the caller (out of the model)."
  },
  {
   "property": "C47",
   "status": "proved",
   "theorems": [
    "C47_equation",
    "C47_matching_point",
    "C47_mismatch",
    "C47_no_matching_point",
    "C47_outer_end_changes_sign"
   ],
   "note": "Also proved: for c0 negative at the outer end the first two values always have opposite signs (C47_outer_end_changes_sign), unlike a decaying solution: the code uses f0/fm instead of -f0/fm."
  },
  {
   "property": "C48",
   "status": "proved",
   "theorems": [
    "C48_shell_volumes",
    "C48_integrate",
    "C48_gauss",
    "C48_outermost",
    "C48_bounds",
    "C48_initial_density"
   ],
   "note": ""
  },
  {
   "property": "C49",
   "status": "proved",
   "theorems": [
    "C49_exchange",
    "C49_correlation",
    "C49_potential",
    "C49_binding"
   ],
   "note": ""
  },
  {
   "property": "C50",
   "status": "proved",
   "theorems": [
    "C50_fit",
    "C50_single_electrons",
    "C50_no_change"
   ],
   "note": "The three total energies are parameters (results of KSAllElectron). ionization_potential and electron_affinity, not modelled, pass an unknown keyword and raise."
  },
  {
   "property": "C51",
   "status": "partial",
   "theorems": [
    "C51_symmetry_change_refuted"
   ],
   "note": "False: atoms with other symmetry ranges are solved with the ranges of the last set_atoms."
  },
  {
   "property": "C52",
   "status": "proved",
   "theorems": [
    "C52_anderson_least_squares",
    "C52_pulay_least_squares"
   ],
   "note": "Exact arithmetic; solver answers satisfy the system."
  },
  {
   "property": "C53",
   "status": "proved",
   "theorems": [
    "C53_summary_stops_everything"
   ],
   "note": "One clock reading for a whole summary."
  },
  {
   "property": "C54",
   "status": "partial",
   "theorems": [
    "C54_human_readable_refuted",
    "C54_human_readable_value"
   ],
   "note": "False: true division makes minutes and seconds 0 for every time (proved for all times)."
  },
  {
   "property": "C55",
   "status": "partial",
   "theorems": [
    "C55_appendix_before_extension",
    "C55_directory_refuted"
   ],
   "note": "Proved for names; refuted when the only dot is in a directory name."
  },
  {
   "property": "C56",
   "status": "partial",
   "theorems": [
    "C56_copies_partial",
    "C56_rejected",
    "C56_ranges",
    "C56_single_copy_refuted"
   ],
   "note": "A single copy in a finite direction with negative operations takes operation -1 instead of the identity (refuted)."
  },
  {
   "property": "C57",
   "status": "partial",
   "theorems": [
    "C57_copy_partial",
    "C57_slab_refuted",
    "C57_wedgeyaxis_refuted",
    "C57_slab_cell_refuted"
   ],
   "note": "All containers but Slab (the magic number overwrites a lattice vector and x is lost) and WedgeYAxis (y-periodicity is lost), both refuted."
  },
  {
   "property": "C58",
   "status": "partial",
   "theorems": [
    "C58_chiral",
    "C58_doublechiral",
    "C58_wedge_height",
    "C58_wedge_angle_partial",
    "C58_wedge_angle_refuted",
    "C58_chiralwedge_angle_partial",
    "C58_chiralwedge_height",
    "C58_chiralwedge_twist_refuted",
    "C58_wedgeyaxis_angle_partial",
    "C58_wedgeyaxis_height",
    "C58_wedgeyaxis_angle_refuted",
    "C58_bend_partial",
    "C58_twist_partial",
    "C58_radius_partial",
    "C58_bend_refuted",
    "C58_twist_refuted",
    "C58_radius_refuted"
   ],
   "note": "Chiral, DoubleChiral and the heights of Wedge, ChiralWedge and WedgeYAxis in full. Angles and radii for images that do not cross the branch cut of the polar angle; refuted across it, for a twisted ChiralWedge, for TwistAndTurn with automatic radius, and for R=0."
  },
  {
   "property": "C59",
   "status": "partial",
   "theorems": [
    "C59_wedge",
    "C59_chiral",
    "C59_doublechiral",
    "C59_rejected_refuted",
    "C59_chiralwedge",
    "C59_wedgeyaxis",
    "C59_twistandturn",
    "C59_chiralgeneral",
    "C59_sphere",
    "C59_chiralwedge_refuted",
    "C59_chiralgeneral_refuted",
    "C59_type_refuted"
   ],
   "note": "Accepted sets of all containers; 'a rejected set changes nothing' is refuted (Wedge, ChiralGeneral), ChiralWedge accepts angles below -pi, and set_container(type=...) always raises."
  },
  {
   "property": "C60",
   "status": "partial",
   "theorems": [
    "C60_mesh_rejected",
    "C60_mesh_accepted",
    "C60_list_nonperiodic_partial",
    "C60_list_nonperiodic_refuted",
    "C60_list_width_refuted"
   ],
   "note": "Meshes in both directions (accepted iff legal; 'equivalent' operations only in the rejecting direction). Refuted for explicit lists: zero width and negative components are accepted."
  },
  {
   "property": "C61",
   "status": "partial",
   "theorems": [
    "C61_orbitals_partial",
    "C61_Drep",
    "C61_mirror",
    "C61_half_turn_refuted",
    "C61_mirror_x_refuted"
   ],
   "note": "Exact for all rotations except R[2,2]=-1 with d orbitals (refuted: half turn about y) and improper operations other than the xy reflection (refuted: x reflection); rotations within the 1e-12 tolerance of the branches are assumed to be exactly in the branch."
  },
  {
   "property": "C62",
   "status": "proved",
   "theorems": [
    "C62_hermitian"
   ],
   "note": "For operations whose orbital matrices are right (C61)."
  },
  {
   "property": "C63",
   "status": "proved",
   "theorems": [
    "C63_first",
    "C63_second"
   ],
   "note": "For i different from j; interpolation of the tables is a parameter with its derivative."
  },
  {
   "property": "C64",
   "status": "partial",
   "theorems": [
    "C64_no_assertion",
    "C64_grid_partial",
    "C64_last_point_refuted",
    "C64_zero_outside",
    "C64_derivative",
    "C64_second_derivative"
   ],
   "note": "Proved for both grid kinds: no assertion failure, values at every grid point but the last, zero outside, derivatives. Refuted: the value at the last grid point is 0 (range is half open). Exact arithmetic: a rounding error can make the assertion fail in floating point."
  },
  {
   "property": "C65",
   "status": "partial",
   "theorems": [
    "C65_grid_partial",
    "C65_bounds_partial",
    "C65_exact_partial",
    "C65_origin_refuted"
   ],
   "note": "Proved for grids whose first point is the origin. Refuted for other grids: the cell index is floor(r/dg), ignoring the first grid point."
  },
  {
   "property": "C66",
   "status": "proved",
   "theorems": [
    "C66_atom",
    "C66_total",
    "C66_range"
   ],
   "note": "Sums per atom and in total, range 0..2. fillable: s occupation in [0,2] and the rest of the valence electrons fit in p (and d)."
  },
  {
   "property": "C67",
   "status": "partial",
   "theorems": [
    "C67_complete_partial",
    "C67_sound_partial",
    "C67_once",
    "C67_ranges",
    "C67_asymmetric_refuted",
    "C67_truncated_refuted"
   ],
   "note": "Proved: completeness and soundness inside the scanned ranges when both orders of a pair have the same range, no repetition, identity first, ranges scanned. Refuted: the selection uses the range of the pair in the other order; images beyond symop_range are ignored whatever its value."
  },
  {
   "property": "C68",
   "status": "partial",
   "theorems": [
    "C68_files",
    "C68_error",
    "C68_elements",
    "C68_order_refuted"
   ],
   "note": "Proved: which file is used, exact error condition, element files. Refuted: independence of the order of atoms when both A_B.par and B_A.par exist."
  },
  {
   "property": "C69",
   "status": "partial",
   "theorems": [
    "C69_tables_partial",
    "C69_own_table_partial",
    "C69_grids_refuted"
   ],
   "note": "Proved when the tables of both orders share their distances (not the first row, see C44) and for the Hamiltonian integrals read from the own table. Refuted when the spacings differ: overlap integrals are put on the distances of the other table, reversed Hamiltonian integrals on the own ones."
  },
  {
   "property": "C70",
   "status": "partial",
   "theorems": [
    "C70_grid_covers",
    "C70_spacing_refuted"
   ],
   "note": "Proved: the grid covers the cell. Refuted for every cell of at least 10 spacings: the result is below 0.63 of the spacing asked for, since the length in Bohr is divided by a spacing in Angstrom."
  },
  {
   "property": "C71",
   "status": "partial",
   "theorems": [
    "C71_weights",
    "C71_bias",
    "C71_window_partial",
    "C71_window_refuted",
    "C71_window_units_refuted"
   ],
   "note": "Proved: range, zero-temperature bias selection, window in absolute energies. Refuted: window relative to the Fermi level, units of a window given with a bias."
  },
  {
   "property": "C72",
   "status": "partial",
   "theorems": [
    "C72_angular_partial",
    "C72_nucleus_refuted"
   ],
   "note": "Proved away from the nucleus when x and y are zero or above 1e-16 (see C42). Refuted at the nucleus, where s orbitals get 0."
  },
  {
   "property": "C73",
   "status": "partial",
   "theorems": [
    "C73_real_part",
    "C73_complex_phases_refuted"
   ],
   "note": "Proved: the array holds the real part of the Bloch sum. Refuted: the imaginary part is lost."
  },
  {
   "property": "C74",
   "status": "partial",
   "theorems": [
    "C74_hermitian",
    "C74_electrons",
    "C74_band_energy",
    "C74_levels",
    "C74_imaginary_refuted"
   ],
   "note": "Proved for all Hermitian matrices. Refuted: an energy with negative imaginary part passes the check (imag instead of abs(imag))."
  },
  {
   "property": "C75",
   "status": "proved",
   "theorems": [
    "C75_guess",
    "C75_sane"
   ],
   "note": ""
  },
  {
   "property": "C76",
   "status": "partial",
   "theorems": [
    "C76_forces_partial",
    "C76_forces_external_partial",
    "C76_forces_no_scc_partial",
    "C76_occupations",
    "C76_free_energy",
    "C76_free_energy_no_scc",
    "C76_energy_refuted"
   ],
   "note": "True of the free energy (energy less width times entropy) with Fermi occupations, and of the energy when occupations do not change, for a potential linear in the charges. C76_energy_refuted: the energy itself, which is what the calculator returns, changes differently when the occupations respond (dimer). With an external potential the force is that of the energy including the external energy at frozen potential, which the calculator's energy lacks."
  },
  {
   "property": "C77",
   "status": "proved",
   "theorems": [
    "C77_h1",
    "C77_potential",
    "C77_forces_cancel"
   ],
   "note": ""
  },
  {
   "property": "C78",
   "status": "partial",
   "theorems": [
    "C78_symmetric",
    "C78_valence",
    "C78_imaginary_refuted"
   ],
   "note": "Symmetry and valence sum proved where values are returned. Refuted: an orthonormal complex set of states fails the assertion on the imaginary part."
  },
  {
   "property": "C79",
   "status": "proved",
   "theorems": [
    "C79_orbitals",
    "C79_atoms",
    "C79_angmom",
    "C79_occupied",
    "C79_angmom_empty_error"
   ],
   "note": "The angular momentum mode is proved when every angular momentum has orbitals; otherwise, for two different angular momenta, it raises (C79_angmom_empty_error)."
  },
  {
   "property": "C80",
   "status": "proved",
   "theorems": [
    "C80_logarithmic_grid"
   ],
   "note": "Non-relativistic coefficients."
  },
  {
   "property": "C81",
   "status": "partial",
   "theorems": [
    "C81_neighbour_list",
    "C81_runtime_error",
    "C81_complete",
    "C81_direction_refuted",
    "C81_scan_refuted"
   ],
   "note": "list exact for the visited cells, complete for Bravais cells not narrower than a fifth of the cutoff; completeness in general and the documented direction of the normal vector are refuted"
  },
  {
   "property": "C82",
   "status": "proved",
   "theorems": [
    "C82_slater_symmetric",
    "C82_slater_derivative",
    "C82_slater_contact",
    "C82_slater_onsite",
    "C82_slater_bounds",
    "C82_slater_errors"
   ],
   "note": "bounds proved for the branch of equal widths; the other parts for all widths"
  },
  {
   "property": "C83",
   "status": "proved",
   "theorems": [
    "C83_gauss_symmetric",
    "C83_gauss_derivative",
    "C83_gauss_contact",
    "C83_gauss_onsite",
    "C83_gauss_bounds",
    "C83_gauss_errors"
   ],
   "note": "erfc is characterised by its value at 0 and its derivative; existence shown with the Riemann integral"
  },
  {
   "property": "C84",
   "status": "proved",
   "theorems": [
    "C84_slater_G_symmetric",
    "C84_gauss_G_symmetric",
    "C84_slater_forces",
    "C84_gauss_forces",
    "C84_slater_G_symmetric_closed",
    "C84_gauss_G_symmetric_closed",
    "C84_slater_forces_closed",
    "C84_gauss_forces_closed"
   ],
   "note": ""
  },
  {
   "property": "C85",
   "status": "partial",
   "theorems": [
    "C85_slater_goal_refuted",
    "C85_gauss_goal_refuted"
   ],
   "note": "false: the estimate has the wrong dimension and is used in the wrong unit; counterexamples proved for both densities (small U, large width)"
  },
  {
   "property": "C86",
   "status": "partial",
   "theorems": [
    "C86_gap_value",
    "C86_gap_error",
    "C86_gap_probability",
    "C86_gap_filled_refuted"
   ],
   "note": "value proved whenever a gap is returned; that one is returned for every calculation is refuted (UnboundLocalError when all states lie on one side)"
  },
  {
   "property": "C87",
   "status": "partial",
   "theorems": [
    "C87_homo_index",
    "C87_lumo_index",
    "C87_gap_indices",
    "C87_lumo_refuted",
    "C87_homo_refuted",
    "C87_get_homo",
    "C87_get_lumo",
    "C87_homo_lumo"
   ],
   "note": "LUMO is the lowest state not below the Fermi level: for a state exactly at the level the strict reading is refuted; with no state below, HOMO returns the first state (refuted)"
  },
  {
   "property": "C88",
   "status": "partial",
   "theorems": [
    "C88_transitions",
    "C88_cutoff_refuted",
    "C88_default_refuted"
   ],
   "note": "list of excitations exact up to one level beyond the cutoff, which is included (refuted: excitations stay below the cutoff); the default cutoff is refuted: it always raises ValueError"
  },
  {
   "property": "C89",
   "status": "proved",
   "theorems": [
    "C89_pairs",
    "C89_no_assertion",
    "C89_setup",
    "C89_errors",
    "C89_too_few",
    "C89_refused"
   ],
   "note": ""
  },
  {
   "property": "C90",
   "status": "proved",
   "theorems": [
    "C90_transfer_symmetric",
    "C90_transfer_total",
    "C90_transfer_neutral",
    "C90_origin",
    "C90_frame"
   ],
   "note": ""
  },
  {
   "property": "C91",
   "status": "proved",
   "theorems": [
    "C91_matrix_symmetric",
    "C91_interaction",
    "C91_plain",
    "C91_raised",
    "C91_sum_rule"
   ],
   "note": "the eigenvectors of numpy eigh are an argument: any orthonormal set of eigenvectors"
  },
  {
   "property": "C92",
   "status": "proved",
   "theorems": [
    "C92_collectivity",
    "C92_collectivity_equal",
    "C92_excitation",
    "C92_excitation_none"
   ],
   "note": ""
  },
  {
   "property": "C93",
   "status": "proved",
   "theorems": [
    "C93_values",
    "C93_default_heights",
    "C93_grid",
    "C93_errors",
    "C93_area",
    "C93_area_unique",
    "C93_peak_area",
    "C93_peak_shape",
    "C93_peak_width",
    "C93_superposition",
    "C93_gauss_fct",
    "C93_lorentzian"
   ],
   "note": "the Gaussian integral is proved in DosProofs from the standard library alone"
  },
  {
   "property": "C94",
   "status": "proved",
   "theorems": [
    "C94_states",
    "C94_broadened",
    "C94_area",
    "C94_refused"
   ],
   "note": ""
  },
  {
   "property": "C95",
   "status": "proved",
   "theorems": [
    "C95_atoms",
    "C95_angular_momenta",
    "C95_projected",
    "C95_agreement",
    "C95_empty_window",
    "C95_window_refuted"
   ],
   "note": "C95_window_refuted: projected and unprojected densities differ when a window is given"
  },
  {
   "property": "C96",
   "status": "proved",
   "theorems": [
    "C96_defined",
    "C96_linear",
    "C96_reciprocal",
    "C96_moved",
    "C96_energy_moved",
    "C96_energy_charge",
    "C96_own_potential",
    "C96_long_range"
   ],
   "note": ""
  },
  {
   "property": "C97",
   "status": "partial",
   "theorems": [
    "C97_waves",
    "C97_periodic",
    "C97_long_range",
    "C97_waves_refuted"
   ],
   "note": "holds for symmetric cell matrices; C97_waves_refuted: the inverse cell matrix is used untransposed, so waves of a monoclinic cell are not periodic"
  },
  {
   "property": "C98",
   "status": "partial",
   "theorems": [
    "C98_tails",
    "C98_images",
    "C98_waves",
    "C98_images_refuted",
    "C98_waves_refuted"
   ],
   "note": "holds for orthogonal cell vectors; C98_images_refuted and C98_waves_refuted: in a skewed cell images and waves well within the cutoffs are left out"
  },
  {
   "property": "C99",
   "status": "proved",
   "theorems": [
    "C99_items",
    "C99_rejects"
   ],
   "note": ""
  },
  {
   "property": "C100",
   "status": "partial",
   "theorems": [
    "C100_word",
    "C100_no_word",
    "C100_words",
    "C100_one_string",
    "C100_test",
    "C100_matrix",
    "C100_strings",
    "C100_boolean",
    "C100_absent",
    "C100_one_string_refuted",
    "C100_last_line_refuted",
    "C100_words_refuted"
   ],
   "note": "C100_one_string_refuted, C100_last_line_refuted, C100_words_refuted: text after a second \"=\" is lost, and the last character too when the line has no newline; holds for values without \"=\""
  },
  {
   "property": "C101",
   "status": "partial",
   "theorems": [
    "C101_read",
    "C101_bad",
    "C101_none",
    "C101_strings",
    "C101_write_read",
    "C101_lines_refuted"
   ],
   "note": "C101_lines_refuted: the documented 'lines' format always fails with an assertion; 'array' and 'string' are proved"
  },
  {
   "property": "C102",
   "status": "partial",
   "theorems": [
    "C102_dispatch",
    "C102_spl_refuted"
   ],
   "note": "C102_spl_refuted: names ending in .spl, and all other names, end in an AttributeError instead of the reader or the intended message"
  },
  {
   "property": "C103",
   "status": "partial",
   "theorems": [
    "C103_skf",
    "C103_skf_fields",
    "C103_native",
    "C103_native_refuted",
    "C103_titanium_refuted"
   ],
   "note": "holds for .skf files, and for .elm files of all elements but Ti, Fe and Ni, for which C103_native_refuted shows that the s orbital gets the d energy whenever they differ"
  },
  {
   "property": "C104",
   "status": "partial",
   "theorems": [
    "C104_element",
    "C104_row",
    "C104_table",
    "C104_row_refuted",
    "C104_grid_refuted"
   ],
   "note": "values are proved for rows that end in a non-zero number; C104_row_refuted: a row that ends in zero reads back one column longer; C104_grid_refuted: all rows come back one grid step too far out"
  },
  {
   "property": "C105",
   "status": "proved",
   "theorems": [
    "C105_read",
    "C105_ragged",
    "C105_header"
   ],
   "note": ""
  },
  {
   "property": "C106",
   "status": "partial",
   "theorems": [
    "C106_values",
    "C106_exact",
    "C106_error",
    "C106_gap",
    "C106_exact_refuted",
    "C106_single_interval_refuted"
   ],
   "note": "exact at grid points with no knot strictly between them and the previous grid point, and within 4 L dx everywhere for slopes up to L; C106_exact_refuted: the first point after a knot is taken from the piece before it; C106_single_interval_refuted: a file with a single interval cannot be read"
  },
  {
   "property": "C107",
   "status": "proved",
   "theorems": [
    "C107_table",
    "C107_smooth"
   ],
   "note": ""
  },
  {
   "property": "C108",
   "status": "partial",
   "theorems": [
    "C108_tables",
    "C108_repulsion",
    "C108_symmetric_table_refuted",
    "C108_bad_repulsion_refuted"
   ],
   "note": "C108_symmetric_table_refuted: a file with X_X_table always ends in a TypeError; C108_bad_repulsion_refuted: an unreadable repulsion is silently replaced by zero"
  },
  {
   "property": "C109",
   "status": "partial",
   "theorems": [
    "C109_axes_refuted"
   ],
   "note": "C109_axes_refuted: the axes are stored as given (the normalisation looks at attributes that stay None), and combined rotations depend on their lengths. What is stored: C59_sphere."
  },
  {
   "property": "C110",
   "status": "partial",
   "theorems": [
    "C110_merged",
    "C110_conserved",
    "C110_increasing",
    "C110_between",
    "C110_order",
    "C110_close",
    "C110_same_decimals",
    "C110_close_refuted"
   ],
   "note": "Proved except for the last part: points that share the first four decimals are merged (truncation, not distance), so points arbitrarily close to each other on both sides of a decimal boundary are kept apart (C110_close_refuted)."
  },
  {
   "property": "C111",
   "status": "partial",
   "theorems": [
    "C111_data",
    "C111_any_order",
    "C111_repeated",
    "C111_distinct_partial",
    "C111_nothing_below_cutoff",
    "C111_too_early",
    "C111_order_refuted",
    "C111_settings_refuted",
    "C111_early_fit_refuted"
   ],
   "note": "Order of the data, data used, repeated fits: proved (for any sort, spline fit, quadrature). Refuted: the order is not lowered when merging leaves too few points (TypeError); settings computed by one fit (s, k) stay for later fits with more data; a fit attempted before any data makes all later fits fail."
  },
  {
   "property": "C112",
   "status": "partial",
   "theorems": [
    "C112_integral",
    "C112_nodes",
    "C112_calls",
    "C112_cutoff",
    "C112_decreasing",
    "C112_derivative_refuted"
   ],
   "note": "At the 100 grid points and beyond the cutoff: proved for exact quadrature and interpolation. Between grid points the potential is a cubic interpolation, and the reported derivative is not its derivative (C112_derivative_refuted)."
  },
  {
   "property": "C113",
   "status": "partial",
   "theorems": [
    "C113_slope_partial",
    "C113_dimer_partial",
    "C113_slope_refuted",
    "C113_default_refuted"
   ],
   "note": "The slope is the exact derivative at some length within 2.5 % above (C113_slope_partial), not at the length itself (C113_slope_refuted: forward difference). With default comment and label the call always fails (C113_default_refuted)."
  },
  {
   "property": "C114",
   "status": "partial",
   "theorems": [
    "C114_energy_partial",
    "C114_count_partial",
    "C114_own_images_refuted"
   ],
   "note": "Proved when no atom is bonded to its own periodic images; otherwise such bonds are counted twice (C114_own_images_refuted: chain with one atom per cell)."
  },
  {
   "property": "C115",
   "status": "partial",
   "theorems": [
    "C115_points",
    "C115_weights",
    "C115_cubic",
    "C115_default_refuted"
   ],
   "note": "Proved for any spline interpolation that reproduces cubics; with default comment and label the call always fails (C115_default_refuted)."
  },
  {
   "property": "C116",
   "status": "proved",
   "theorems": [
    "C116_failed_call",
    "C116_points_kept",
    "C116_comments"
   ],
   "note": "All histories of the seven calls (point, scalable system, dimer, curve, equilibrium trajectory, homogeneous cluster, fit)."
  },
  {
   "property": "C117",
   "status": "partial",
   "theorems": [
    "C117_eight",
    "C117_refuted"
   ],
   "note": "Refuted: at most eight in any history (C117_eight); the ninth raises TypeError (C117_refuted)."
  },
  {
   "property": "C118",
   "status": "proved",
   "theorems": [
    "C118_forces",
    "C118_zero",
    "C118_nonnegative",
    "C118_convex",
    "C118_points"
   ],
   "note": "The minimiser itself (scipy fmin) is not modelled; its result is a parameter."
  },
  {
   "property": "C119",
   "status": "partial",
   "theorems": [
    "C119_table",
    "C119_unfitted",
    "C119_unfitted_refuted",
    "C119_saved",
    "C119_fit_loaded",
    "C119_plain_refuted"
   ],
   "note": "Table and pickled data: proved. Refuted: writing without a fit leaves a file with a heading and no table; saving with pickle=False always raises TypeError and leaves an empty file."
  },
  {
   "property": "C120",
   "status": "partial",
   "theorems": [
    "C120_once",
    "C120_refuted"
   ],
   "note": "The first test gets all files (C120_once); the file names are removed from the fitting, so a second test raises KeyError (C120_refuted)."
  },
  {
   "property": "C121",
   "status": "proved",
   "theorems": [
    "C121_regular",
    "C121_regular_nonzero",
    "C121_irregular",
    "C121_addition"
   ],
   "note": "Real arithmetic; irregular harmonics for nonzero vectors."
  },
  {
   "property": "C122",
   "status": "proved",
   "theorems": [
    "C122_moments",
    "C122_shift"
   ],
   "note": "Including the branch for zero shift."
  },
  {
   "property": "C123",
   "status": "proved",
   "theorems": [
    "C123_rotation"
   ],
   "note": "The recursive construction of the representation matrices is proved correct for all l."
  },
  {
   "property": "C124",
   "status": "partial",
   "theorems": [
    "C124_old_origin",
    "C124_translations_partial",
    "C124_charged_refuted",
    "C124_helix_refuted"
   ],
   "note": "Proved for translations with an odd number of cells per step, any number of levels; in general the moments are exactly those about the origin of the previous step (C124_old_origin). Refuted when the origin moves: charged systems whenever it moves (even numbers of cells, ex_even), and a neutral helix with an odd number of cells."
  },
  {
   "property": "C125",
   "status": "proved",
   "theorems": [
    "C125_shift",
    "C125_potential",
    "C125_field"
   ],
   "note": ""
  },
  {
   "property": "C126",
   "status": "proved",
   "theorems": [
    "C126_error",
    "C126_converges"
   ],
   "note": ""
  },
  {
   "property": "C127",
   "status": "proved",
   "theorems": [
    "C127_charge",
    "C127_dipole"
   ],
   "note": ""
  },
  {
   "property": "C128",
   "status": "proved",
   "theorems": [
    "C128_error",
    "C128_converges"
   ],
   "note": "Whole pipeline of MultipoleExpansion._update for the potential: moments, telescoping, local expansion of all levels, near cells, self term, dipole correction. Equal k in all directions with odd n; field not included (C125 gives it from the same expansion)."
  },
  {
   "property": "C129",
   "status": "proved",
   "theorems": [
    "C129_angular",
    "C129_normal"
   ],
   "note": ""
  },
  {
   "property": "C130",
   "status": "partial",
   "theorems": [
    "C130_area",
    "C130_total",
    "C130_points",
    "C130_complete",
    "C130_center_partial",
    "C130_beyond_refuted"
   ],
   "note": "Refuted for the near side: for every grid with at least three radii and angles there is a distance at which a point lies beyond the plane (an element of which the outer edge is cut off). All the rest is proved."
  },
  {
   "property": "C131",
   "status": "proved",
   "theorems": [
    "C131_exchange",
    "C131_overlap",
    "C131_symmetric",
    "C131_hamiltonian"
   ],
   "note": ""
  },
  {
   "property": "C132",
   "status": "partial",
   "theorems": [
    "C132_tables",
    "C132_rows",
    "C132_rejects",
    "C132_range_refuted",
    "C132_end_refuted",
    "C132_timing_refuted"
   ],
   "note": "The content of tables is proved. Refuted: a table with a distance close to twice the range (in particular one that ends there) raises IndexError, R1 beyond twice the range divides by zero, and with timing a second run always raises because a timer is not stopped."
  },
  {
   "property": "C133",
   "status": "proved",
   "theorems": [
    "C133_selected",
    "C133_names"
   ],
   "note": "If an element has two valence orbitals with the same letter the first is not used."
  },
  {
   "property": "C134",
   "status": "proved",
   "theorems": [
    "C134_covers",
    "C134_tail",
    "C134_found"
   ],
   "note": "On the points of the radial grid."
  },
  {
   "property": "C135",
   "status": "proved",
   "theorems": [
    "C135_state",
    "C135_no_step"
   ],
   "note": "Conditional on the solver accepting. Also proved: if the step of energy is zero and the first trial has a wrong number of nodes, all 101 attempts are the same and RuntimeError is raised."
  },
  {
   "property": "C136",
   "status": "partial",
   "theorems": [
    "C136_result",
    "C136_few_iterations",
    "C136_no_iterations",
    "C136_selfconsistent_refuted"
   ],
   "note": "The sequence and the stopping rule are proved. Refuted that the potential is near that of the density: with mixing factor 0 a run succeeds with any error. With itmax at most 6 no run succeeds; AttributeError exactly if itmax is 0."
  },
  {
   "property": "C137",
   "status": "proved",
   "theorems": [
    "C137_energy"
   ],
   "note": "Exact identity with the two error terms written out."
  },
  {
   "property": "C138",
   "status": "proved",
   "theorems": [
    "C138_electrons",
    "C138_configuration"
   ],
   "note": "Up to 1e-10: electrons in orbitals with n of 10 or more (or unknown letters) are not calculated, and the run raises RuntimeError if there are any."
  },
  {
   "property": "C139",
   "status": "partial",
   "theorems": [
    "C139_states",
    "C139_once",
    "C139_round_trip",
    "C139_tenth_refuted"
   ],
   "note": "Refuted for n of 10 or more: the name can never be read back."
  },
  {
   "property": "C140",
   "status": "partial",
   "theorems": [
    "C140_results",
    "C140_before",
    "C140_frozen",
    "C140_potential_refuted"
   ],
   "note": "Refuted for the effective potential: the spline made at the first call is kept for ever (proved to be frozen), so it is that of an old run."
  },
  {
   "property": "C141",
   "status": "partial",
   "theorems": [
    "C141_errors",
    "C141_made",
    "C141_at_r0",
    "C141_quadratic",
    "C141_general",
    "C141_general_2",
    "C141_general_refuted",
    "C141_woods_bounds",
    "C141_woods_increasing",
    "C141_woods_limit",
    "C141_capitals_refuted"
   ],
   "note": "Refuted: the general mode with negative exponent decreases; only Woods-Saxon can be written with capitals."
  },
  {
   "property": "C142",
   "status": "partial",
   "theorems": [
    "C142_workspaces",
    "C142_after_failure_refuted",
    "C142_overflow_refuted",
    "C142_buffers",
    "C142_mixed_types_refuted"
   ],
   "note": "Proved while memory is left, for sizes up to 32766 and equal types. Refuted otherwise: after a failed malloc a later small problem works with a NULL array; at size 32767 the length overflows and nothing is allocated; a real first and complex second matrix make LAPACK write beyond the first."
  },
  {
   "property": "C143",
   "status": "partial",
   "theorems": [
    "C143_diagonalize",
    "C143_norm",
    "C143_indefinite",
    "C143_all_k",
    "C143_indefinite_refuted"
   ],
   "note": "Proved relative to the contract of LAPACK when it reports success. The report itself is ignored: for an overlap that is not positive definite the result is exactly characterised (columns of H in place of wave functions), and refuted that an error is always raised."
  },
  {
   "property": "C144",
   "status": "partial",
   "theorems": [
    "C144_hermitian",
    "C144_triangle",
    "C144_antihermitian",
    "C144_dot",
    "C144_square",
    "C144_row_refuted",
    "C144_root"
   ],
   "note": "Hermitian exactly if the diagonal is real. Properties proved for square matrices; refuted for others: a row of numbers is called symmetric."
  },
  {
   "property": "C145",
   "status": "partial",
   "theorems": [
    "C145_sum",
    "C145_order",
    "C145_history",
    "C145_new_geometry",
    "C145_stale_refuted",
    "C145_time_refuted",
    "C145_early",
    "C145_without_scc",
    "C145_without_scc_refuted"
   ],
   "note": "Proved for geometries not calculated before; in general exactly the potentials and time of the last solution are in force. Refuted for potentials added, or time advanced, between two calculations of the same geometry. Adding before the first calculation raises AttributeError (as hotbit/test/external_field.py does). Without SCC potentials are ignored."
  },
  {
   "property": "C146",
   "status": "proved",
   "theorems": [
    "C146_laser",
    "C146_direction"
   ],
   "note": "A polarisation of zero length (nan in the code) is excluded."
  },
  {
   "property": "C147",
   "status": "proved",
   "theorems": [
    "C147_graphene",
    "C147_ZGNR",
    "C147_AGNR",
    "C147_armchair_ribbon"
   ],
   "note": "Positions up to the overall shift that centring makes; AGNR and ZGNR without hydrogen."
  },
  {
   "property": "C148",
   "status": "partial",
   "theorems": [
    "C148_one_unit",
    "C148_atoms",
    "C148_x_refuted",
    "C148_z_refuted"
   ],
   "note": "Proved for one unit along x, and for the atoms of any ribbon if they are repeated after n1 units. Refuted for two or more units along x (the cell is one unit long: images coincide with atoms) and for every ribbon along z (cell 3 R per unit: bonds are missing)."
  },
  {
   "property": "C149",
   "status": "partial",
   "theorems": [
    "C149_data",
    "C149_zero",
    "C149_length",
    "C149_attached_refuted"
   ],
   "note": "All data proved; (0,0) raises ZeroDivisionError. Length and radius of constructed tubes agree with the data for the same bond length; the data attached to a tube are refuted for bond lengths other than 1.42."
  },
  {
   "property": "C150",
   "status": "proved",
   "theorems": [
    "C150_chiral",
    "C150_bonds"
   ],
   "note": ""
  },
  {
   "property": "C151",
   "status": "partial",
   "theorems": [
    "C151_nanotube_partial",
    "C151_sites",
    "C151_margin_refuted",
    "C151_range_refuted"
   ],
   "note": "Proved for n^2+nm+m^2 <= 166 (up to (12,1) or (7,7)); in every tube atoms are at different sites of the lattice. Refuted: (34,33) loses atoms in the margin 1e-5 at the end of the cell, (60,59) loses those beyond the fixed range of 100 cells searched."
  },
  {
   "property": "C152",
   "status": "partial",
   "theorems": [
    "C152_list",
    "C152_complete_refuted"
   ],
   "note": "Proved that the tubes listed are exactly those with n from 3 to 19 and m from 0 to n. Refuted that all tubes with diameter of at least 2 are listed: (2,2) is missing, the loop ends at (2,0). With Python 3 the call of sort raises TypeError."
  },
  {
   "property": "C153",
   "status": "proved",
   "theorems": [
    "C153_forces",
    "C153_error",
    "C153_correct_forces",
    "C153_field"
   ],
   "note": "Energy, forces, potential and field are functions of the positions."
  },
  {
   "property": "C154",
   "status": "partial",
   "theorems": [
    "C154_stress",
    "C154_restored_refuted"
   ],
   "note": "The values are proved. Refuted that the atoms are restored: the cell remains strained in the last component whatever the structure."
  },
  {
   "property": "C155",
   "status": "partial",
   "theorems": [
    "C155_positions",
    "C155_images",
    "C155_distance",
    "C155_rotation_refuted",
    "C155_sheared_refuted"
   ],
   "note": "Positions, images and distances proved for orthorhombic cells. Refuted: the rotation is ignored; sheared cells with the volume of an orthorhombic one are accepted though their images are not those of the wedge."
  },
  {
   "property": "C156",
   "status": "partial",
   "theorems": [
    "C156_scan",
    "C156_linescan",
    "C156_distance",
    "C156_distance_refuted",
    "C156_lines",
    "C156_broadened",
    "C156_maximum",
    "C156_maximum_refuted"
   ],
   "note": "Heights and lines proved. Distances proved for ends of equal height and refuted otherwise. get_max_over_xy proved for data not all negative in the plane and refuted for negative data (the search starts from 0)."
  },
  {
   "property": "C157",
   "status": "partial",
   "theorems": [
    "C157_nodes",
    "C157_ends",
    "C157_monotone",
    "C157_sample",
    "C157_distribution",
    "C157_norm",
    "C157_norm_refuted"
   ],
   "note": "Distribution proved with scipy.optimize.brentq returning a zero of a continuous function. Refuted that the norm is the integral: it is divided by the number of points instead of intervals. Functions without the method limits raise AttributeError."
  },
  {
   "property": "C158",
   "status": "partial",
   "theorems": [
    "C158_consistent",
    "C158_rotation",
    "C158_distance",
    "C158_group",
    "C158_group_refuted"
   ],
   "note": "Isometry, agreement of rotation and transform, and composition along each direction proved. Refuted for both directions together: composing (1,0) and (0,1) is not (1,1)."
  },
  {
   "property": "C159",
   "status": "proved",
   "theorems": [
    "C159_any_solver",
    "C159_system",
    "C159_well_formed",
    "C159_hermitian"
   ],
   "note": "The systems made from any structure are covered (C159_any_solver). Exact arithmetic; that LAPACK solves the problem is the contract of C143."
  },
  {
   "property": "C160",
   "status": "partial",
   "theorems": [
    "C160_same_physics",
    "C160_accepted",
    "C160_renumbered",
    "C160_renumbered_refuted"
   ],
   "note": "Proved if the tables of A-B and B-A agree (one file, or two consistent files). Refuted if two files given for A-B and B-A differ: the energy of repulsion and the Hamiltonian use the file of the lower-numbered atom. Electrostatics without charge or dipole corrections, DirectCoulomb only."
  },
  {
   "property": "C161",
   "status": "proved",
   "theorems": [
    "C161_systems",
    "C161_moved"
   ],
   "note": "For electrostatics with DirectCoulomb and gamma corrections; the external potential is taken at the atoms. Equality of the arrays of images and cells up to the motion is a hypothesis (they are computed from the container)."
  },
  {
   "property": "C162",
   "status": "partial",
   "theorems": [
    "C162_sum",
    "C162_potential",
    "C162_energy",
    "C162_symmetric",
    "C162_forces",
    "C162_continuous_refuted"
   ],
   "note": "The last part is refuted: the potential jumps by erfc(1)/cutoff where an atom enters the cutoff, because the sum is cut where the screened interaction is not small. Forces where no pair coincides or is at the cutoff."
  },
  {
   "property": "C163",
   "status": "proved",
   "theorems": [
    "C163_forces",
    "C163_forces_scc"
   ],
   "note": "Where the calculation is differentiable: FrcSpec.smooth (no distance at the end of a table, tables of derivatives contain derivatives), smooth_charges (no pair at the cutoff), smooth_path (some choice of eigenstates varies differentiably, no state begins to be occupied, charges self-consistent, no external potential with SCC). Tables of A-B and B-A agree. Electrostatics with DirectCoulomb and gamma corrections. With width of a real calculation, energy in eV, positions in Angstrom."
  },
  {
   "property": "C164",
   "status": "partial",
   "theorems": [
    "C164_vector",
    "C164_vector_of_point",
    "C164_distance",
    "C164_symmetric",
    "C164_triangle",
    "C164_zero",
    "C164_unique",
    "C164_numpy_refuted",
    "C164_length_refuted",
    "C164_oblique_refuted"
   ],
   "note": "For cells with exactly orthogonal axes. Refuted: with NumPy 1.13 and later every call with two points is an error (an array is compared to None); distance(ri) without rj is the distance to (1,1,1), since mic is passed in the place of rj; oblique cells with negative off-diagonal elements are accepted by the check, and an atom is then at distance 1 of its own image."
  },
  {
   "property": "C165",
   "status": "partial",
   "theorems": [
    "C165_reduce",
    "C165_rejects",
    "C165_accepts",
    "C165_set_positions_accepts",
    "C165_distances",
    "C165_fixed",
    "C165_set_positions",
    "C165_set_calculator",
    "C165_rejected",
    "C165_rejected_refuted",
    "C165_set_cell_refuted",
    "C165_scale"
   ],
   "note": "Refuted: rejected positions stay in the structure (ValueError is raised after storing), and set_cell does not update (its second definition replaces the first), leaving atoms outside. The rest is proved."
  },
  {
   "property": "C166",
   "status": "partial",
   "theorems": [
    "C166_shared",
    "C166_copy_refuted"
   ],
   "note": "Refuted: copy.copy shares the arrays, so that positions, cell and pbc of copy and original are the same after every history; setting positions of the copy moves the original, for every structure."
  },
  {
   "property": "C167",
   "status": "partial",
   "theorems": [
    "C167_bonds",
    "C167_first_write",
    "C167_stale_refuted",
    "C167_numpy_refuted"
   ],
   "note": "Refuted: write_vtk keeps the bonds of its first call when atoms have moved; with NumPy 1.13 and later there is an error for two or more atoms."
  },
  {
   "property": "C168",
   "status": "proved",
   "theorems": [
    "C168_symmetric",
    "C168_form",
    "C168_moments",
    "C168_positive",
    "C168_sum",
    "C168_triangle",
    "C168_steiner",
    "C168_translated"
   ],
   "note": "Given that eigh returns an orthonormal basis of eigenvectors for the tensor (shown symmetric)."
  },
  {
   "property": "C169",
   "status": "partial",
   "theorems": [
    "C169_interpolate",
    "C169_segments",
    "C169_set",
    "C169_locked",
    "C169_sum",
    "C169_zero",
    "C169_constraint",
    "C169_shift",
    "C169_forces",
    "C169_ends",
    "C169_copied",
    "C169_copied_refuted",
    "C169_stale",
    "C169_stale_refuted"
   ],
   "note": "For images that are different objects with data of their own. Refuted: images made with Atoms.copy as in the script of barriers.py share positions, so that interpolate puts all but the last at one point; after a locked step the deviations are those of the locked positions for ever. Forces where neighbouring images differ."
  },
  {
   "property": "C170",
   "status": "proved",
   "theorems": [
    "C170_root",
    "C170_smooth",
    "C170_force_x",
    "C170_force_y"
   ],
   "note": "x component where the argument of the square root is positive, shown for 0 <= x <= 1.871; the y component is exactly the derivative at y + 0.5e-6."
  },
  {
   "property": "C171",
   "status": "partial",
   "theorems": [
    "C171_criterion",
    "C171_conserved",
    "C171_shift",
    "C171_constant_refuted"
   ],
   "note": "Refuted for atoms without forces: the total energy is constant and so is the potential energy, and the answer is no."
  },
  {
   "property": "C172",
   "status": "partial",
   "theorems": [
    "C172_length",
    "C172_bound_partial",
    "C172_refuted"
   ],
   "note": "Refuted: negative random numbers are not bounded, so that displacements above any K occur. Proved for random numbers above -2 standard deviations (dR/2)."
  },
  {
   "property": "C173",
   "status": "partial",
   "theorems": [
    "C173_composition",
    "C173_first",
    "C173_set_name_refuted",
    "C173_append_refuted"
   ],
   "note": "Refuted: a name given by set_name is never returned, and the default name is kept when atoms are added."
  },
  {
   "property": "C174",
   "status": "proved",
   "theorems": [
    "C174_reduction",
    "C174_lists",
    "C174_mesh_covers",
    "C174_mesh_or_list"
   ],
   "note": "Eigensolvers by the documented behaviour of LAPACK, succeeding; spacing of the mesh above 1e-10; images closed under inversion; a new mixer. Matrices are built from the structure as in C159-C161."
  },
  {
   "property": "C175",
   "status": "proved",
   "theorems": [
    "C175_same_points",
    "C175_found"
   ],
   "note": "For stored potentials that are symmetric (construct_h1 gives these) and eigensolvers as in C174."
  },
  {
   "property": "C176",
   "status": "partial",
   "theorems": [
    "C176_after",
    "C176_default_refuted",
    "C176_no_scc"
   ],
   "note": "Proved with h1=True for SCC and h1=False without. Refuted for the default h1=False with SCC: the potential is left out, an atom in an external potential has other band energies at the very k-point of the calculation. h1=True without SCC is an error."
  },
  {
   "property": "C177",
   "status": "partial",
   "theorems": [
    "C177_kept",
    "C177_replaced",
    "C177_unchanged_refuted"
   ],
   "note": "True without kpts. Refuted with kpts: the phases kept in Interactions are replaced by those at the new points, and wave functions on the grid are built with these (or the index does not exist). What they become is stated."
  },
  {
   "property": "C178",
   "status": "proved",
   "theorems": [
    "C178_bloch",
    "C178_reciprocal",
    "C178_bravais",
    "C178_not_bravais",
    "C178_other"
   ],
   "note": "Other values of rs: UnboundLocalError."
  },
  {
   "property": "C179",
   "status": "proved",
   "theorems": [
    "C179_multiple",
    "C179_exact"
   ],
   "note": "Eigensolvers by the documented behaviour of LAPACK, succeeding; a root finder and a linear solver whose answers do not depend on a common factor. Checks of the number of electrons and of the sum of charges are absolute, so the larger calculation may fail where the smaller does not (C179_multiple); with exact roots both fail alike (C179_exact)."
  },
  {
   "property": "C180",
   "status": "proved",
   "theorems": [
    "C180_assembled",
    "C180_structures"
   ],
   "note": "Images without partner must be beyond all cutoffs. Tables as in C159 (one table for both orders of a pair)."
  },
  {
   "property": "C181",
   "status": "proved",
   "theorems": [
    "C181_rejected",
    "C181_ring"
   ],
   "note": "All M points in the order of the mesh, none left out (inverse points can be left out by C174); numerical exceptions as in C179."
  },
  {
   "property": "C182",
   "status": "proved",
   "theorems": [
    "C182_rejected",
    "C182_chain"
   ],
   "note": "Images within reach must be among those of both structures; with SCC the cutoff of the Coulomb sum must not exceed the distance of the cells that are not visited (five to each side; beyond it the results differ). Points are lists: the mesh of the short cell is the folded mesh of the long one only for some m."
  },
  {
   "property": "C183",
   "status": "proved",
   "theorems": [
    "C183_motion",
    "C183_molecule",
    "C183_crystal"
   ],
   "note": "Exact arithmetic. Tables as in C159 (one table for both orders of a pair). With SCC the cells visited by the Coulomb sum must contain inverses (true of Bravais, wedges and chains without explicit asymmetric ranges)."
  },
  {
   "property": "C184",
   "status": "proved",
   "theorems": [
    "C184_wedge",
    "C184_chain",
    "C184_radial_refuted"
   ],
   "note": "The other components of the sum need not vanish: C184_radial_refuted gives a wedge of two images whose forces do not sum to zero, so an optimizer or a check that removes the total force would change it."
  },
  {
   "property": "C185",
   "status": "proved",
   "theorems": [
    "C185_ground_state",
    "C185_energy"
   ],
   "note": "The error made for levels more than MAX_EXP_ARGUMENT widths above the chemical potential, 2 width exp(-MAX_EXP_ARGUMENT) for each, is in the statement (emptied). Competitors with another number of electrons are compared with the help of the chemical potential."
  },
  {
   "property": "C186",
   "status": "proved",
   "theorems": [
    "C186_interaction",
    "C186_last_step",
    "C186_anderson",
    "C186_pulay",
    "C186_ground_state",
    "C186_converged"
   ],
   "note": "The condition on the electrostatics (costs: the energy of charges that sum to zero is not negative) is a property of gamma and the Coulomb sum; it is a hypothesis here, shown for a dimer in ex_ground. C186_ground_state has no such hypothesis: it keeps the energy of the charge difference and the mismatch of the last step."
  },
  {
   "property": "C187",
   "status": "proved",
   "theorems": [
    "C187_same_within",
    "C187_unique",
    "C187_result",
    "C187_close"
   ],
   "note": "Same hypothesis on the electrostatics as C186; the numbers of electrons are taken to be equal, while occupy only guarantees 1e-10."
  },
  {
   "property": "C188",
   "status": "proved",
   "theorems": [
    "C188_warmer",
    "C188_warmer_scc"
   ],
   "note": "Energy and entropy if no level is cut off by MAX_EXP_ARGUMENT; with SCC for exactly self-consistent charges and electrostatics as in C186."
  },
  {
   "property": "C189",
   "status": "proved",
   "theorems": [
    "C189_energy",
    "C189_costs",
    "C189_costs_more",
    "C189_ground_state",
    "C189_narrow_refuted"
   ],
   "note": "Gaussian charge distributions, no gamma_cut, direct Coulomb sum of a molecule; erfc is a function with erfc(0)=1 and the derivative of the complementary error function. Slater charge distributions and periodic systems are not covered. The condition on the widths is needed: C189_narrow_refuted has two atoms with narrower distributions where moving charge gains energy."
  },
  {
   "property": "C190",
   "status": "partial",
   "theorems": [
    "C190_grid",
    "C190_short",
    "C190_atoms",
    "C190_vectors_refuted",
    "C190_lengths_refuted"
   ],
   "note": "Proved for grids (smaller data raise IndexError and the file cannot be read) and for atoms with scalars, up to the rounding of the printed numbers. Refuted for vectors (every call with vector properties raises NameError, because of an undefined name) and for scalars with a wrong number of values (written without exception, cannot be read). Names of properties are single words."
  },
  {
   "property": "C191",
   "status": "partial",
   "theorems": [
    "C191_from_matrix",
    "C191_rejected",
    "C191_axis",
    "C191_angles",
    "C191_given",
    "C191_orbitals",
    "C191_sphere_mode_refuted",
    "C191_every_refuted"
   ],
   "note": "Proved up to the rounding of numbers below 1e-16 (phival) and tolerances of 1e-12 (hypotheses angle_resolved, axis_resolved, clear_cut); the eigenvalue routine is an oracle with its contract (eigenpairs_of). Refuted: a Sphere whose mode is not set to 4 cannot be used with d orbitals (NotImplementedError); Bravais, Chiral, DoubleChiral, Slab and ChiralWedge give no angles (a matrix or an exception), but are never asked (C191_given). Half turns of the z-axis are excluded as in C61."
  },
  {
   "property": "C192",
   "status": "proved",
   "theorems": [
    "C192_harmonics",
    "C192_unknown",
    "C192_conjugate",
    "C192_addition",
    "C192_orthonormal",
    "C192_coordinates"
   ],
   "note": "The reference is Rodrigues' formula computed with polynomials, with normalisation sqrt((2l+1)/4pi (l-m)!/(l+m)!). Orthonormality as iterated integrals (Coquelicot). Components below 1e-16 are rounded by phival, vectors shorter than 1e-6 are mapped to zero."
  },
  {
   "property": "C193",
   "status": "proved",
   "theorems": [
    "C193_bound",
    "C193_nonneg",
    "C193_spherical",
    "C193_sum",
    "C193_scale"
   ],
   "note": "Grid points are numbered, shells are given by any function of the point; values of basis functions and reading and writing of files are not modelled here."
  },
  {
   "property": "C194",
   "status": "partial",
   "theorems": [
    "C194_values",
    "C194_errors",
    "C194_peak",
    "C194_peak_area",
    "C194_width",
    "C194_shape",
    "C194_area",
    "C194_superposition",
    "C194_stack",
    "C194_order",
    "C194_vertices",
    "C194_default_colors",
    "C194_arrays_fail",
    "C194_arrays_refuted",
    "C194_polygon_refuted",
    "C194_all_bands_refuted"
   ],
   "note": "Spectra and the curves of bands are proved. Refuted: weights given as arrays, as documented and as make_plot gives them, raise ValueError for two or more values with NumPy 1.13 and later; polygons return along (low, low) instead of (grid, low); without colours only as many bands as values are drawn. Grids of integers raise TypeError. Drawing itself is not modelled."
  },
  {
   "property": "C195",
   "status": "proved",
   "theorems": [
    "C195_dual",
    "C195_points",
    "C195_zone",
    "C195_path",
    "C195_error",
    "C195_inside"
   ],
   "note": "ase.dft.kpoints.get_bandpath is an oracle; that every point it returns lies on a section is the hypothesis of C195_inside."
  },
  {
   "property": "C196",
   "status": "partial",
   "theorems": [
    "C196_potential",
    "C196_energy",
    "C196_grid",
    "C196_names",
    "C196_case",
    "C196_energies",
    "C196_separate_fails",
    "C196_energy_refuted"
   ],
   "note": "The potential is proved for densities of at least 1e-90, relative to the contract of libxc (derivatives of the energy density) and exact derivatives on the grid. Refuted for the energy: every functional with separate exchange and correlation (17 of 22 names, among them PBE) raises NameError, because the energy of exchange is not stored; the other five have an energy."
  },
  {
   "property": "C197",
   "status": "partial",
   "theorems": [
    "C197_no_error",
    "C197_found",
    "C197_nothing_else",
    "C197_ends",
    "C197_exact",
    "C197_flat_refuted"
   ],
   "note": "Relative to the contract that the minimisation of scipy fits three equally spaced points exactly (a fit meeting it is shown). Refuted for peaks with two equally high points: they are overlooked, so a curve can have no peaks at all although its ends are zero."
  },
  {
   "property": "C198",
   "status": "partial",
   "theorems": [
    "C198_mean",
    "C198_mean_defined",
    "C198_mean_equal",
    "C198_mean_two",
    "C198_number",
    "C198_mean_nan_refuted",
    "C198_mean_none_refuted"
   ],
   "note": "Proved for values returned when the shortest distance is at most 9.899 (mean) and 9.949 (number). Refuted otherwise: a triangle with sides of 9.91 has a mean bond length of nan, and one with sides of 11 has none. Distances are an argument (see C164). That the cutoff separates bonds from other pairs is not claimed."
  },
  {
   "property": "C199",
   "status": "partial",
   "theorems": [
    "C199_labels",
    "C199_distances",
    "C199_steps",
    "C199_number",
    "C199_errors",
    "C199_end_missing_refuted"
   ],
   "note": "Points and steps are proved when each part is longer than half the average spacing; distances, number of points and errors (no points, or all the same) without this. Refuted otherwise: the end of a short part is not on the path, so even the last point can be missing."
  },
  {
   "property": "C200",
   "status": "proved",
   "theorems": [
    "C200_ranges",
    "C200_unit",
    "C200_same",
    "C200_polar",
    "C200_azimuth",
    "C200_height",
    "C200_all",
    "C200_sphere"
   ],
   "note": "Relative to independent uniform numbers in [0,1) of np.random.random, which are arguments."
  },
  {
   "property": "C201",
   "status": "partial",
   "theorems": [
    "C201_common",
    "C201_kept",
    "C201_lost_refuted",
    "C201_lost_among_refuted"
   ],
   "note": "Proved for texts whose lines of one character are blank. Refuted otherwise: such lines are ignored when the lowest indentation is looked for, so their character is lost; a text of one character becomes empty. splitlines of Python is not modelled, its lines are the argument."
  },
  {
   "property": "C202",
   "status": "partial",
   "theorems": [
    "C202_components",
    "C202_to_array",
    "C202_unchanged",
    "C202_to_list_fails",
    "C202_to_list_refuted",
    "C202_max_norm"
   ],
   "note": "Refuted for the change from an array to a list, which always raises (range of a float in Python 3, or AssertionError); all else is proved."
  },
  {
   "property": "C203",
   "status": "proved",
   "theorems": [
    "C203_modes",
    "C203_parts",
    "C203_separate",
    "C203_other"
   ],
   "note": "Lines are those of readlines, with ASCII characters; the comment character is one character. Opening and closing of the file is not modelled."
  },
  {
   "property": "C204",
   "status": "proved",
   "theorems": [
    "C204_any_time",
    "C204_complete",
    "C204_stdout",
    "C204_print"
   ],
   "note": "Files are opened successfully and no other program writes to them; a file no longer referred to is written and closed at once, as in CPython; histories start with the stream None of Output.__init__; objects with write, other than standard output, and the timer are not modelled; __del__ is not modelled."
  }
 ]
}