# Formal model of hotbit: design

Scope: the Python (and some C) sources in /repo, read as text and never run.
The model is in `rocq/theories` (logical name `Verif`), Coq 8.16.1.

## Conventions

* One topic = `<Topic>Model.v` (definitions, each citing file and lines in /repo),
  `<Topic>Spec.v` where a separate specification is useful, `<Topic>Proofs.v`
  (lemmas and examples), `<Topic>Props.v` (only `Theorem ... exact ...` and
  `Print Assumptions`).
* Python floats are modelled as the reals `R` unless a property is about rounding.
  Python ints are `Z` (or `nat` for indices and lengths).
* Exceptions are values (`option` or an error constructor).
* External calls (LAPACK, scipy root finder, linear solvers, energy
  evaluation) are universally quantified function arguments of the model. No axioms are declared.
* If the code violates a property as stated, the theorem is named `..._refuted`
  and gives a witness; the part that does hold is proved beside it.

## Trusted base

* Coq's kernel (8.16.1, coqc; `vm_compute` in some examples).
* The axioms printed by `Print Assumptions` under each theorem in the `*Props.v` files. Those over the reals use the standard
  library's `ClassicalDedekindReals.sig_forall_dec`, `ClassicalDedekindReals.sig_not_dec`,
  `FunctionalExtensionality.functional_extensionality_dep` and sometimes `Classical_Prop.classic`.
* The faithfulness of the models: each definition cites its source lines and notes simplifications.

## What is modelled and what is not

| model | code |
|---|---|
| CacheModel | aseinterface.py (calculator life cycle, set/get, update), states.py and elements.py (update flags), grids.py and analysis/mulliken.py (lazy initialisation) |
| MixModel | solver.py (SCC loop), box/misc.py, box/pulay.py, box/dummymixer.py, box/buildmixer.py |
| TimerModel | box/timing.py |
| UtilModel | box/mix.py: integer, name and list helpers |
| GeomModel, ContModel, ScaModel | atoms.py, containers/*.py (transformations, rotations, symmetry ranges, setup, set() and scaling, copying), box/mix.py rotations |
| OccModel | occupations.py |
| KptModel | states.py: k-point setup |
| PairModel | repulsion.py, pairpotential.py, vdw.py |
| CoulModel | coulomb/*.py except ewald_sum.py (see EwModel) (caching, images, telescoping), c/multipole.c and c/spherical.c (index arithmetic) |
| MpModel | coulomb/multipole.py, coulomb/multipole_expansion.py (_update, for the potential), c/multipole.c, c/spherical.c |
| SkModel | c/slako.c, interactions.py: Slater-Koster transformations, H0, S and derivatives, orbital rotation |
| SplModel | box/interpolation.py |
| ElemModel | elements.py, element.py |
| TabModel | interactions.py, elements.py: selection and reading of parameter tables |
| GridModel | grids.py, analysis/wavefunctions.py |
| RhoModel | states.py (density matrix, band energy, forces), electrostatics.py (h1, energies), analysis/mulliken.py and bond analysis |
| AtomModel | parametrization/atom.py, parametrization/util.py: radial grid, radial equation, Hartree and exchange-correlation potentials, table tails |
| GamModel | neighbors.py, electrostatics.py (gamma corrections) |
| GapModel | aseinterface.py (gap, frontier states, excitations of the dielectric function), states.py (get_homo, get_lumo) |
| LrModel | analysis/lr.py (linear response) |
| DosModel | box/mix.py (broaden, lorentzian, gauss_fct), analysis/mulliken.py (DensityOfStates) |
| EwModel | coulomb/ewald_sum.py |
| IoModel | box/mix.py (find_value, read, write), io/fortran.py, io/__init__.py, io/native.py (.par files) |
| SkfModel | io/dftb.py, io/hb2skf.py (header and tables), io/native.py (.elm files), valence orbitals of box/data.py |
| FitModel | parametrization/fitting.py (without plotting and append_energy_slope), repulsion.py (get_repulsion_distances) |
| StbModel | parametrization/slako.py (without plotting and writing), get_wf_range of parametrization/atom.py and element.py |
| EigModel | c/geig.c, solver.py (get_eigenvalues_and_wavefunctions, diagonalize), auxil.py (matrices), matrix_square_root of wfpropagation.py (LAPACK is an argument with a contract) |
| EnvModel | environment.py and its use in aseinterface.py, states.py and electrostatics.py |
| SysModel | box/systems.py (without centring; structures of carbon only) |
| AidModel | box/fd_forces.py; box/distort.py (setup_bending); box/grids.py (GridData but reading and plotting); box/random.py; containers/saddle.py (transform, rotation) |
| InvModel | one calculation from structure to forces: states.py (solve, update, large_update), solver.py, aseinterface.py (get_potential_energy, get_forces), coulomb/direct_coulomb.py, put together from SkModel, EigModel, MixModel, OccModel, RhoModel, GamModel, PairModel |
| BoxModel | box/atoms.py: set_positions, set_calculator, set_cell, scale_positions, copy, vector, distance, pair list, bonds, names, random displacements, moments of inertia; box/barriers.py: LEPS_Calculator, MEP (not the BTI class); box/md.py: check_energy_conservation (the recorded energies are arguments) |
| BndModel | k-points of whole calculations: interactions.py 289-317 (phases), states.py 79-212, 273-282; aseinterface.py 488-513 (get_band_energies); auxil.py (k_to_kappa_points); the phases used by grids.py 146; everything else as in InvModel |
| (FoldSpec) | copies of a structure: containers/wedge.py, bravais.py, chiral.py as descriptions of InvModel.structure (image maps, phases, ranges of the direct Coulomb sum); no further code |
| (NetSpec) | rigid motions of InvModel.structure, total force and torque of InvModel.result; no further code |
| VtkModel | box/vtk.py (files as lists of words) |
| YlmModel | hotbit/analysis/wavefunctions.py Ylm, to_spherical_coordinates, JelliumAnalysis.mark_grids (shells), analyse_state, analyse_states |
| XcfModel | parametrization/pylibxc_helper.py, pylibxc_functionals.py, pylibxc_interface.py (libxc is an argument); choice of the functional in atom.py |
| PkpModel | box/mix.py get_peak_positions (the minimisation of fit2 is an argument) |
| MblModel | box/atoms.py mean_bond_length, number_of_bonds, pair_distribution_function (default arguments), pair_distribution_list (distances are an argument) |
| IplModel | box/interpolation.py interpolate_path |
| DirModel | box/mix.py random_direction, spherical_to_cartesian (random numbers are arguments) |
| IndModel | box/mix.py clean_indentation (after splitlines) |
| VmdModel | box/mix.py select_vector_mode, norm, max_norm |
| RdfModel | box/mix.py read_file (lines of an existing file) |
| OutModel | hotbit/output.py Output, hotbit/aseinterface.py Hotbit.set_text (names of files and None) |
| BrdModel | box/broaden.py (plotting only as the list of polygons) |
| BzpModel | box/brillouin_zone.py (ASE's get_bandpath is an argument) |
| AngModel | box/mix.py rotation_from_matrix; rotation(n,angles=True) of all containers; interactions.py rotation_transformation of an operation |
| (GndSpec) | competing electrons for InvModel.system, their energy and charges; no further code |
| KsModel | parametrization/atom.py, KSAllElectron: configuration, solve_eigenstates, run, energies, accessors; ConfinementPotential; orbit_transform (PW92; without printing, plotting and files; restart data is an input) |

Not modelled: LAPACK, numpy and scipy (their results are arguments of the model or, for
elementary operations, the mathematical operation), floating-point rounding, plotting, printing and parallel output,
wfpropagation.py (propagate always raises RuntimeError),
box/{calculators,convergence_plotter}.py and the rest of box/md.py, misc/, the test suite.
Each definition in a `*Model.v` file cites its lines; simplifications are stated in its comment.

## Plan per property

| property | how |
|---|---|
| C01 | state machine over abstract geometry/result oracles; induction over the call list, refinement to "solve the atoms asked about" |
| C02 | same machine with set_atoms; refuted by a concrete history |
| C03 | same machine with failing solves as an oracle; refuted by a concrete history |
| C04 | set() decision table; refuted for 'charge' |
| C05 | flags machine; positive for Mulliken/DOS/bonds, refuted for grids |
| C06 | loop with the mixer as an arbitrary function of state; induction on remaining iterations |
| C07 | list max/min; refuted |
| C08 | vectors as lists of reals; arbitrary solver outcome; invariant over calls |
| C09 | real algebra on lists |
| C10 | real algebra on lists |
| C11 | simulation between reset and new mixer |
| C12 | string functions; case analysis |
| C13 | `OccModel.fermi` over R with the overflow limit as parameter; monotonicity of exp. |
| C14 | `OccModel.occupy` with brentq as an oracle; strict monotonicity of the electron count. |
| C15 | `OccSpec.brentq_contract`; bracketing estimates at emin-width and emax+width; witness with one orbital. |
| C16 | `KptModel.setup_mesh/setup_list`; invariant of the reduction loop (`KptProofs.reduced`). |
| C17 | Same invariant against the closed-form mesh of `KptSpec`; near-inverse means inverse because sums are multiples of the spacing. |
| C18 | `GeomModel`: `transform` for all ten container types on real vectors. Equational proofs over R; TwistAndTurn via cylindrical coordinates; witness for Sphere. |
| C19 | `GeomModel`: `rotation`, `transform`; `rotation` is orthogonal and images of differences are rotated differences. Witness against TwistAndTurn. |
| C20 | `GeomModel.ranges`; existence and uniqueness of a representative, via `sin x = 0 -> x = k pi`. |
| C21 | `ContModel.magic_get/magic_set` over R and `fmagic_get/fmagic_set` over SpecFloat doubles; histories by induction (`ContSpec.reachable`). |
| C22 | `ContModel.set_container` with a Python-version flag. |
| C23 | ElemModel initialize (the two loops) with closed forms proved by induction over the atoms |
| C24 | `SkModel.ht`, generated from slako.c entry by entry; spec: orbitals as quadratic forms `SkSpec.Td`, their rotation `Drep`, and `bond_frame`. The d block through completeness of the five traceless symmetric tensors. |
| C25 | `SkModel.dht`; chain rule with the derivative of each of the 107 coefficients checked symbolically. |
| C26 | `SkModel.read_integral` and all 81 orbital pairs. |
| C27 | PairModel mirrors the energy, pair-energy and force loops of repulsion.py over atoms and images; directional derivative proved with Coq's derivable_pt_lim for every image set closed under inverse (PairProofs.energy_derivative). Tables are arbitrary functions with their derivative. |
| C28 | PairModel.add_pair_potential / full_v over call histories; invariant: keys stored symmetrically and every stored potential consistent; eVA branch refuted for every Bohr <> 1. |
| C29 | '%04i%04i' modelled as digit lists; length and value lemmas give injectivity below 10000; collision witness (12345,6789)/(1234,56789). Symbols as strings, capital plus lower-case letters. |
| C30 | Closed formulas of vdw.py over R; derivative by Coq's derivation rules; bounds by monotonicity. |
| C31 | sqrt/square identities over R. |
| C32 | CoulModel.update as a state machine over arbitrary positions, charges, environments and an oracle for the calculation that may raise. |
| C33 | Every C loop of the harmonics, shifts and the rotation is transcribed to the list of (array size, index) it touches (CoulModel.acc_*); bounds proved for all l_max by integer arithmetic, counters by induction on l_max. |
| C34 | near/far of CoulModel list the cells whose multipoles are added, level by level; by induction on the level a block of the telescope is a centred box, so shells are disjoint and cover. |
| C35 | GridModel: slices, stamp, rough test and loop over images on integer triples; proved against a separate centred-orbital sum (GridSpec.bloch) |
| C36 | GridModel.density with the break at small occupations; refuted, exact factor proved for filled shells |
| C37 | RhoModel: populations as finite sums of pairs of reals (complex numbers, Cpx); proved by exchange of sums |
| C38 | RhoModel.atom_and_bond against band energy + pair sum + Coulomb energy - free atoms |
| C39 | Two nested loops as a structural recursion (`fill`, `cpus`); conservation by induction on the CPUs with the load still to place as measure. |
| C40 | loop models |
| C41 | `GeomModel.rotation_matrix`; polynomial identities modulo |axis|=1 and sin^2+cos^2=1. |
| C42 | `GeomModel.phival`; case analysis with atan. |
| C43 | Timer tree (`TimerModel`), refinement to a board of independent stop-watches; two refutations by witness. |
| C44 | SplModel: sweep/back (the tridiagonal solve), searchsorted, msf/msf1/msf2; pivots bounded away from zero by induction, equations by field, derivatives by gluing the cubic pieces at knots; natural spline unique by diagonal dominance; first point and below refuted |
| C45 | Integer and real version of sec_to_time; rfind on character lists. Refuted parts by witness. |
| C46 | AtomModel.tail_smoothening with an outcome per exception; witnesses for the refuted parts |
| C47 | AtomModel.shoot on index functions; back substitution and forward recursion by induction; the residual is the textbook finite difference |
| C48 | AtomModel.RadialGrid and hartree; sums over shells |
| C49 | AtomModel.e_x, e_corr with Rpower and ln; derivable_pt_lim through s = sqrt(rs) |
| C50 | AtomModel.IP_EA; parabola through three points |
| C51 | cache machine of C01; refuted by a history changing the symmetry |
| C52 | history refinement of the mixer rows; normal equations imply minimality |
| C53 | Invariant of the timer tree after a summary. |
| C54 | Real division in human_readable_time; proved value and refutation. |
| C55 | rfind based model on character lists. |
| C56 | `GeomModel.extended_copy`; list reasoning, iff characterisation of the accepted counts. |
| C57 | `ContModel.make/copy`; invariant over `ContSpec.reachable`, witnesses for Slab and WedgeYAxis. |
| C58 | `ContModel.chiral_set/doublechiral_set/wedge_set` with scaling; screw-motion algebra, uniqueness of the polar angle. |
| C59 | `ContModel` set functions with the state left by an exception. |
| C60 | `KptModel` error branches; characterisation of acceptance, witnesses for lists. |
| C61 | `SkModel.rotation_transformation` and the 34 expressions of `orbital_transformations_from_angles`, compared with `Drep` of the rotation matrix; `Drep` is justified by C61_Drep on orbital functions. |
| C62 | `SkModel.get_matrix` with the sum over images; involution n -> inv n, covariance (C24) and reversal (C26). |
| C63 | `SkModel.dblock`, `dblock2` and the derivative of the sum over images. |
| C64 | SplModel fast/fsf: index functions find the interval (floor and power inverse), then as C44 with local spacing |
| C65 | SplModel trilinear with Python index wrap-around; origin grids proved, shifted grids refuted |
| C66 | ElemModel free_population; piecewise linear sum over shells |
| C67 | ElemModel ntuples/set_range; selection against hscut; two refutations |
| C68 | TabModel interaction_files/element_files as folds over dictionaries; invariants over the processed prefix |
| C69 | TabModel htab/stab on top of SplModel.msf and SkModel.read_integral |
| C70 | GridModel.points/spacing over R; refuted for every large cell |
| C71 | GridModel.ldos_weight; case analysis |
| C72 | GridModel.angular against Cartesian harmonics, using the phival result C42 |
| C73 | as C35; refuted with a witness with phase i |
| C74 | RhoModel.compute_rho, ebs; Hermitian forms; refuted check with a witness |
| C75 | RhoModel.guess_dq, sane |
| C76 | RhoModel forces; Hellmann-Feynman with derivatives of states, derivable_pt_lim; fixed occupations |
| C77 | RhoModel.construct_h1, epsilon, gamma_force; derivative of a quadratic form |
| C78 | RhoModel.mayer; idempotency of rho S; refuted with rational orthonormal states |
| C79 | RhoModel.cov_*; pair sums, permutation of the orbitals by angular momentum |
| C80 | chain rule for u(rmin exp x) |
| C81 | GamModel.get_neighbours; set equality with close pairs, NoDup index list, Cauchy-Schwarz with the reciprocal vectors for completeness |
| C82 | GamModel.slater_term, both branches; exact derivatives and limits; exp Taylor bound for the inequalities |
| C83 | GamModel.gauss_term with erfc as an argument |
| C84 | GamModel.slater_gamma, gauss_gamma; the sum over images is reindexed by the inverse cell; derivative term by term |
| C85 | slater_cutoff, gauss_cutoff; refutation with explicit bounds on exp and erfc |
| C86 | GapModel.get_energy_gap: fold over the flattened states; invariant: best state so far |
| C87 | GapModel.get_state_indices with masked argmax/argmin on the flattened arrays; get_homo, get_lumo as first match |
| C88 | GapModel.dielectric_transitions: the index searches and loops of lines 656-692 |
| C89 | LrModel.particle_holes: the double loop with its assertion; LrModel.lr_setup |
| C90 | LrModel.mulliken_transfer, rv, strength; sums over atoms regrouped to orbitals |
| C91 | LrModel.matrix, strength; quadratic form, Parseval identity from orthonormal columns (proved without determinants) |
| C92 | LrModel.collectivity, get_excitation; induction over the scan with the count so far |
| C93 | DosModel.broaden as written; area by antiderivatives (arctangent; the Gaussian integral by differentiating under the integral sign) |
| C94 | DosModel.get_dos; sums over the concatenated lists regrouped over k-points and bands |
| C95 | DosModel.local_dos, local_pdos with the assertion; Mulliken sums of C37 per state |
| C96 | EwModel.update: both sums over their index ranges as lists; the interaction kernel is symmetric because the ranges are closed under negation |
| C97 | EwModel.wave with np.dot(G, inv(cell)) as written; field identities for symmetric cells, monoclinic witness |
| C98 | EwModel.r_range, g_range; Cauchy-Schwarz for orthogonal cells, skewed witness |
| C99 | IoModel.fortran_readline on characters; items and separators described by IoSpec, induction over the items |
| C100 | IoModel.find_value/find_key on lines; the first naming line by induction over the file |
| C101 | IoModel.read_rows/read_array/read_strings/write; data sets as an inductive predicate |
| C102 | IoModel.filetype and the three dispatchers; endings of lower-cased names |
| C103 | SkfModel with the valence table of box/data.py; shapes of the valence lists by enumeration of the table |
| C104 | SkfModel.skf_header writes text, the readers parse it; state of the zero-run compression by induction over the row |
| C105 | SkfModel.read_HS_from_skf; induction over the lines |
| C106 | SkfModel.spline_table: overwriting of table tails piece by piece; invariant of the tails over the pieces |
| C107 | SkfModel.poly_table; derivative from the factor (cutoff - r)^2 |
| C108 | IoModel.read_HS_from_par, read_repulsion_from_par on top of find_value |
| C109 | ScaModel.sphere_set with GeomModel.sphere_rotation; witness with axes of lengths 1 and 2 |
| C110 | FitModel.group_points: fold over sorted data; specification by filtering the data with the same decimals |
| C111 | FitModel.fit with the spline fit, sort and quadrature as parameters |
| C112 | FitModel.integrate_vrep; is_RInt of Coquelicot |
| C113 | FitModel.append_scalable; mean value theorem |
| C114 | FitModel.bond_list against PairModel.total_energy (C27) |
| C115 | FitModel.collect, append_curve |
| C116 | FitSpec.run; induction over the history |
| C117 | FitModel.get_color; invariant on the counter |
| C118 | FitModel.frep equal to PairModel.force; sums of squares |
| C119 | FitModel.write_par as list of items; load after write |
| C120 | FitModel.take_files, new_test |
| C121 | MpModel.legendre_R/I recurrences against the explicit polynomial MpSpec.solid |
| C122 | addition theorem by generating functions |
| C123 | MpModel.Dmat; induction on l with the product rules of solid harmonics |
| C124 | MpModel.telescope, levels |
| C125 | MpSpec.local_value; is_derive of Coquelicot |
| C126 | generating function of Legendre polynomials, Vandermonde convolution for the truncated double sum |
| C127 | degree 0 and 1 of MpSpec.moment |
| C128 | MpModel.mp_phi; combination of C121-C127 |
| C129 | StbModel.gphi against RInt of products of StbSpec.Y |
| C130 | StbModel.make_piece, pieces, make_grid against integrals of StbSpec.cut |
| C131 | mirror symmetry of the grid, parity of spherical harmonics |
| C132 | StbModel.run; the timer of TimerModel for the last part |
| C133 | StbModel.select_integrals against StbSpec.is_last |
| C134 | StbModel.find_range, get_range |
| C135 | KsModel.solve_state against KsSpec.solves |
| C136 | KsModel.run against KsSpec.scf_trace, converged |
| C137 | KsModel.total_energy against KsSpec.kinetic, external, hartree_int, xc_int |
| C138 | KsModel.density; KsSpec.calculated |
| C139 | KsModel.to_name, of_name, list_states |
| C140 | KsModel.kruns |
| C141 | KsModel.confine, make_confinement |
| C142 | EigModel.gruns, py_geig against EigSpec.enough, largest |
| C143 | EigModel.diagonalize, all_k against RhoSpec.eigenstate, orthonormal; EigSpec.lapack_contract |
| C144 | EigModel.make_hermitian, has_property, matrix_square_root |
| C145 | EnvModel.eruns against EnvSpec.superposition, last_solution |
| C146 | EnvModel.laser_phi |
| C147 | SysModel.graphene, ZGNR, AGNR, armchair_ribbon against SysSpec.crystal1, crystal2, neighbours, zigzag_bonds, armchair_bonds |
| C148 | SysModel.zigzag_ribbon against SysSpec.zigzag_bonds |
| C149 | SysModel.nanotube_data against SysSpec.lat, dirac, hexagon_area |
| C150 | SysModel.chiral_nanotube against SysSpec.is_tube, helical, wrap |
| C151 | SysModel.nanotube against SysSpec.is_tube, tube_with_holes |
| C152 | SysModel.cnt_tubes |
| C153 | AidModel.check_forces, check_field against AidSpec.central, smooth3 (Taylor with third derivative) |
| C154 | AidModel.check_virial against AidSpec.strained, strain_energy |
| C155 | AidModel.setup_bending against AidSpec.bent, shifted, wedge and GeomModel.transform |
| C156 | AidModel.scan, line_height, broad_height, get_max_over_xy against AidSpec.contour, no_contour; trilinear interpolation of SplModel |
| C157 | AidModel.r_F, r_call, r_norm against AidSpec.trapezoid, brentq_contract |
| C158 | AidModel.sad_transform, sad_rotation; GeomSpec.dist |
| C159 | InvModel.calculate and assemble (the other models put together) against InvSpec.equal_answer |
| C160 | InvModel.assemble and calculate against InvSpec.rigid_motion, same_answer |
| C161 | InvModel.assemble and calculate against InvSpec.rigid_motion, same_answer; representation Drep of rotations on orbitals from the Sk topic |
| C162 | InvModel.direct_* against FrcSpec.interaction (sum over cells) and derivatives |
| C163 | InvModel.assemble, pass, finish for displaced structures against FrcSpec.smooth_path, free_energy; Hellmann-Feynman through RhoProofs, gamma derivatives through GamProofs, pair terms through PairProofs |
| C164 | BoxModel.vector, distance against BoxSpec.shortest_image (a minimum over all integer combinations of cell vectors) |
| C165 | BoxModel.step on a store of shared data against BoxSpec.placed, inside |
| C166 | BoxModel.world with addresses; induction over histories |
| C167 | BoxModel.construct_bonds, write_vtk against BoxSpec.bonded |
| C168 | BoxModel.inertia, moments_of_inertia against BoxSpec.moment = sum m |u x r|^2 |
| C169 | BoxModel.path with addresses against BoxSpec.constraint_energy, force_of |
| C170 | BoxModel.leps*; mean value theorem |
| C171 | BoxModel.check_energy_conservation on the recorded energies |
| C172 | BoxModel.random_shift; random numbers as arguments |
| C173 | BoxModel.composition, get_name, set_name |
| C174 | BndModel.at_kpoints puts the phases exp(i n.k) into InvModel.structure, run_at runs InvModel.calculate; matrices at -k are conjugates, spectra are equal by the projector argument of InvLin, weighted sums agree by BndSpec.covers, which the mesh of KptModel satisfies; induction over SCC iterations |
| C175 | BndModel.get_band_energies against BndSpec.same_point |
| C176 | BndModel.kept: what the calculator holds after get_states returns; same argument as C175 |
| C177 | BndModel.get_band_energies returns the points for which phases are kept; grid_phases |
| C178 | BndModel.k_to_kappa against BndSpec.bloch_factor |
| C179 | FoldSpec.unfolds relates two InvModel.system; the density matrix depends on eigenvectors only through spectral projectors (InvLin), which are transported by the unitary matrix of phases and orbital rotations; induction over SCC iterations with mixers related by a factor |
| C180 | FoldSpec.copies, copied_cells; sums over images of the small structure are regrouped over copies and images of the large one; rotation of Slater-Koster blocks from InvProofs |
| C181 | FoldSpec.wedge, molecule, placed; wedge_copies and wedge_cells give the hypotheses of C180: M roots of unity, images are all remainders modulo M |
| C182 | FoldSpec.chain, longer, visited; longer_copies and longer_cells: division with remainder of repetitions by m |
| C183 | NetSpec: rigid_velocity, symmetric_motion, net_force, net_torque. Band forces: derivatives of Slater-Koster blocks along a rigid motion are commutators with an infinitesimal rotation of orbitals (NetProofs-3), which have no trace with the density matrix; pair, repulsion and Coulomb forces by central forces and inverse images (NetProofs4); assembled in NetProofs6-7 |
| C184 | FoldSpec.wedge, chain; translations along z and turns about z commute with the operations, then C183_motion. Refutation: one atom and its opposite image repel |
| C185 | GndSpec: electrons_in, band_of, free_of. The squared overlaps of two orthonormal sets are doubly stochastic (GndProofs2); for each pair of states the Fermi function minimises e f - width s(f) - mu f by the inequality of Gibbs (GndProofs) |
| C186 | GndSpec: interacts_by, coulomb_of, costs, mismatch, computed_from. C185 in the potential of the last step; expectation values of h1 S are potentials times Mulliken charges (RhoProofs2.shift_energy); expansion of the electrostatic energy about the charges found |
| C187 | C186_ground_state in both directions |
| C188 | C185 and C186 for each width with the electrons of the other width as competitors |
| C189 | A matrix multiplied by Gaussians of distances in one direction stays positive, because it is a limit of integrals of squares (GndProofs10.psd_gauss); the potential of two Gaussian charges is an integral of such matrices over t, written as derivative of erf(d t/sqrt(1+t^2 s))/d and its limit for large t (GndProofs11.positive_kernel); GndProofs12 connects to gamma and the Coulomb sum |
| C190 | `VtkModel`: files as lists of words; `VtkSpec` is a reader of the format. Position of a point in the three loops by induction |
| C191 | `AngModel`: `rotation_from_matrix`, `rotation_angles`. The eigenvalue 1 exists since det(R-1) = 0; orthonormal frame of axis, a1, b1; two matrices that agree on a frame are equal; `phival` from C42; orbitals from C61 |
| C192 | `YlmModel.Ylm` has the formulas of the code case by case. The 49 cases by comparing with derivatives of (x^2-1)^l; integrals over theta by antiderivatives of polynomials in cos(theta), over phi by periodicity |
| C193 | `YlmModel.analyse_state`, `characters`: Cauchy-Schwarz for each shell and the sum rule of C192; the shells are a partition of the points inside |
| C194 | `BrdModel.broaden`, `bands`, `make_cumulative_plot`; the integral from C93, the loop by induction over the bands with the curve below as parameter |
| C195 | `BzpModel.get_bandpath`; first zone as all points not nearer to any lattice vector than to the origin: a bound on lattice vectors that can be as near, then a complete check of those; convexity for the sections |
| C196 | `XcfModel.exc`, `vxc`, `v_gga`, `init`; the variation of r^2 times the energy density by the chain rule in two variables, equal to r^2 v eta plus the derivative of a term proportional to eta; names by going through the table |
| C197 | `PkpModel.candidates`, `refine`, `get_peak_positions`; candidates are exactly the points higher than both neighbours; vertex of the parabola through three points from its second and first differences |
| C198 | `MblModel.pdf`, `mean_cut`, `number_cut`; a sum of Gaussians can only fall beyond the shortest distance, and it exceeds the threshold of the loop near it; witnesses by monotony of one Gaussian |
| C199 | `IplModel.n_i`, `segment`, `path_from`, `cumulate`; induction over the parts, rounding differs by at most one half, the last point of linspace is the end; witness on a line |
| C200 | `DirModel.random_direction`, `random_vector`; area of a cap as an integral (Coquelicot), cosine decreasing on [0,pi]; a direction gives back the numbers through its height and an angle on the circle |
| C201 | `IndModel.lowest`, `cut`, `drop_first`; minimum over the lines by induction, the loop over the unchanged string removes exactly the ends of lines at the start |
| C202 | `VmdModel.select_vector_mode`, `max_norm`; induction over lists |
| C203 | `RdfModel.lstrip`, `keep`, `read_file`; the loop is a filter of the stripped lines by induction |
| C204 | `OutModel.set_text`, `print`, `flush`, `close_output`, `spill`, `run`; file contents with the buffer are an invariant of every step |
