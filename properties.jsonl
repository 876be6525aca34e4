{"id": "C01", "title": "Energies and forces always belong to the atoms asked about", "statement": "For any sequence of get_potential_energy, get_forces, get_band_structure_energy, get_coulomb_energy, solve_ground_state and get_dq calls made on one initialised calculator with arbitrary (changing, repeating) atoms, and as long as no solve raises, the value returned by each call equals the value a fresh solve of exactly those atoms gives; repeated calls with unchanged atoms do not solve again.", "quantifier": "all finite call histories, all atoms configurations", "why_tests_cant": "The cache outcome depends on the whole call history; the number of histories is unbounded.", "anchors": ["hotbit/aseinterface.py: Hotbit.solve_ground_state, get_potential_energy, get_forces, get_band_structure_energy, get_coulomb_energy", "hotbit/elements.py: Elements.calculation_required, set_solved, update_geometry"]}
{"id": "C02", "title": "set_atoms between calls does not corrupt later answers", "statement": "Interleaving set_atoms(B) with energy and force calls never changes what get_potential_energy(A) or get_potential_energy(B) return.", "quantifier": "all call histories containing set_atoms", "why_tests_cant": "The bad history needs a specific interleaving of three calls.", "anchors": ["hotbit/elements.py: Elements.set_atoms, set_solved", "hotbit/aseinterface.py: get_potential_energy"]}
{"id": "C03", "title": "A failed solve does not poison the calculator", "statement": "If solving for atoms B raises (for example 'Out of iterations.'), later calls for atoms A still return the values of A.", "quantifier": "all call histories in which some solves raise", "why_tests_cant": "Crash points between updating the geometry and finishing the solve must all be covered.", "anchors": ["hotbit/aseinterface.py: solve_ground_state", "hotbit/elements.py: update_geometry, set_solved"]}
{"id": "C04", "title": "Calculator parameters are frozen or take effect", "statement": "After initialisation, set(...) of any calculator parameter either raises or changes the results of later calculations accordingly.", "quantifier": "all parameter keys, all call histories", "why_tests_cant": "Needs all keys and all later calls.", "anchors": ["hotbit/aseinterface.py: Hotbit.set, Hotbit._initialize", "hotbit/elements.py: Elements.__init__"]}
{"id": "C05", "title": "Analysis results are rebuilt after the geometry changes", "statement": "Grid quantities, Mulliken populations, DOS and bond analysis asked after a geometry change are computed from the new geometry.", "quantifier": "all call histories", "why_tests_cant": "Staleness depends on the order of calls.", "anchors": ["hotbit/aseinterface.py: solve_ground_state, _init_mulliken, _init_DOS, _init_bonds, _init_grids"]}
{"id": "C06", "title": "The self-consistency loop ends in one of the documented ways", "statement": "For every mixer and every sequence of charges: a non-SCC solve diagonalises exactly once; an SCC solve returns only after the mixer has accepted, and at the first acceptance, recording that iteration index; otherwise it raises after exactly maxiter diagonalisations. It never diagonalises more than maxiter times.", "quantifier": "all maxiter >= 1, all mixers, all charge sequences", "why_tests_cant": "Unbounded iteration histories of an arbitrary mixer.", "anchors": ["hotbit/solver.py: Solver.get_states"]}
{"id": "C07", "title": "Iteration statistics report the true maximum and minimum", "statement": "get_iteration_info reports as 'max' the largest and as 'min' the smallest recorded number of iterations.", "quantifier": "all iteration histories", "why_tests_cant": "All histories.", "anchors": ["hotbit/solver.py: Solver.get_iteration_info"]}
{"id": "C08", "title": "Charge mixing conserves the total charge", "statement": "If every input and output charge vector of an SCC cycle sums to Q, every vector produced by the Anderson mixer sums to Q, for any mixing constant, memory, chop and whatever the linear solver returns; likewise for the Pulay mixer whenever the matrix inverter returns an inverse or raises. The first guess of a cycle carries the charge of the system.", "quantifier": "all vector lengths, memories, histories and linear-solver outcomes", "why_tests_cant": "Unbounded histories and arbitrary real data.", "anchors": ["box/misc.py: AndersonMixer.__call__", "box/pulay.py: PulayMixer.__call__"]}
{"id": "C09", "title": "The chop limit is respected", "statement": "With chop=c>0 no component of the mixed vector differs from the input vector by more than c, and the direction of the step is unchanged.", "quantifier": "all vectors, all mixer states", "why_tests_cant": "Arbitrary reals and histories.", "anchors": ["box/misc.py: AndersonMixer.__call__", "box/pulay.py: PulayMixer.__call__"]}
{"id": "C10", "title": "The Anderson mixer accepts exactly the converged vectors, and keeps fixed points", "statement": "The mixer reports done iff the largest residual component is below the convergence limit; a self-consistent input (output equals input) is returned unchanged, provided the linear solver raises on singular systems.", "quantifier": "all vectors, all mixer states", "why_tests_cant": "Arbitrary histories.", "anchors": ["box/misc.py: AndersonMixer.__call__"]}
{"id": "C11", "title": "A reset mixer forgets its history", "statement": "After reset() the answers of the Anderson mixer and of the Pulay mixer to any sequence of inputs are those of a newly built mixer with the same parameters.", "quantifier": "all histories before the reset and all sequences after it", "why_tests_cant": "Unbounded histories.", "anchors": ["box/misc.py: AndersonMixer", "box/dummymixer.py: DummyMixer.reset", "hotbit/solver.py: Solver.get_states"]}
{"id": "C12", "title": "Mixer specification dispatch", "statement": "BuildMixer(None) is an Anderson mixer with default parameters; a string n, or a dictionary {'name':n,...}, selects the Anderson or Pulay mixer whose name is n in any letter case, the other entries of the dictionary being passed as parameters; every other name raises KeyError and unknown parameters raise.", "quantifier": "all names and letter cases", "why_tests_cant": "All strings.", "anchors": ["box/buildmixer.py: BuildMixer"]}
{"id": "C13", "title": "Occupation numbers are physical", "statement": "Every occupation lies in [0,2), never rises with the orbital energy and never falls with the chemical potential; it is positive and changes strictly as long as the exponential does not overflow.", "quantifier": "all energies, chemical potentials and widths > 0", "why_tests_cant": "Real-valued inputs.", "anchors": ["hotbit/occupations.py: Occupations.fermi"]}
{"id": "C14", "title": "The chemical potential reproduces the electron number", "statement": "Whenever occupy returns, the k-weighted sum of occupations equals the number of electrons within the tolerance; no two different chemical potentials give the same electron number.", "quantifier": "all spectra, weights, widths and electron numbers", "why_tests_cant": "Real-valued inputs, any number of states.", "anchors": ["hotbit/occupations.py: Occupations.occupy, Occupations.root_function"]}
{"id": "C15", "title": "A chemical potential is found for every physical filling", "statement": "For every 0 < nel < 2*norb occupy succeeds (the root search interval brackets the root).", "quantifier": "all spectra and fillings", "why_tests_cant": "Real-valued inputs; the failing spectra are special.", "anchors": ["hotbit/occupations.py: Occupations.occupy"]}
{"id": "C16", "title": "k-point weights sum to one", "statement": "For every accepted k-point mesh, and for every accepted explicit list, the weights are positive and sum to one.", "quantifier": "all mesh sizes and symmetries", "why_tests_cant": "All mesh sizes.", "anchors": ["hotbit/states.py: States.setup_k_sampling"]}
{"id": "C17", "title": "Reduction by inversion loses no k-point", "statement": "Every k-point of the full mesh is represented: it or its inverse is in the list, exactly one of them, and the weight counts how many mesh points it stands for; averages of quantities equal at k and -k are those of the full mesh.", "quantifier": "all meshes", "why_tests_cant": "All meshes.", "anchors": ["hotbit/states.py: States.setup_k_sampling"]}
{"id": "C18", "title": "Symmetry operations form a group action", "statement": "For the Bravais, Wedge, Chiral, ChiralWedge, ChiralGeneral, WedgeYAxis and DoubleChiral containers: the operation (0,0,0) leaves every position fixed, and applying operation n and then m is applying n+m.", "quantifier": "all positions, all integer operation tuples, all container parameters", "why_tests_cant": "Infinite groups acting on real vectors.", "anchors": ["hotbit/containers/bravais.py", "hotbit/containers/wedge.py", "hotbit/containers/chiral.py", "hotbit/containers/chiralwedge.py", "hotbit/containers/chiralgeneral.py", "hotbit/containers/wedgeyaxis.py", "hotbit/containers/doublechiral.py: transform"]}
{"id": "C19", "title": "Symmetry operations are rigid and agree with their rotation matrices", "statement": "Every symmetry operation preserves all distances, and for any two positions the difference of their images is the container's rotation matrix applied to the difference of the positions.", "quantifier": "all positions, operations and container parameters", "why_tests_cant": "Real-valued inputs.", "anchors": ["hotbit/containers/*.py: transform, rotation"]}
{"id": "C20", "title": "Finite symmetry directions enumerate each operation once", "statement": "For a Wedge with angle 2*pi/M the symmetry range contains exactly M consecutive operations including the identity, no two of them equivalent modulo M, so every image is visited exactly once.", "quantifier": "all M", "why_tests_cant": "All M.", "anchors": ["hotbit/containers/wedge.py: get_symmetry_operation_ranges, _set_table"]}
{"id": "C21", "title": "Container information survives encoding in the cell", "statement": "For every container type and its parameters, the type recovered from the magic-number encoding in the cell is the one stored; ordinary cells are not mistaken for encoded ones.", "quantifier": "all container types and parameter values", "why_tests_cant": "All values.", "anchors": ["hotbit/atoms.py: Atoms, container_magic"]}
{"id": "C22", "title": "Copying a container copies its parameters", "statement": "set(container=other) makes a container with the same parameters as other, for every container type.", "quantifier": "all container types and parameter values", "why_tests_cant": "All parameter values.", "anchors": ["hotbit/containers/*.py: set"]}
{"id": "C23", "title": "Orbital indices partition the basis", "statement": "For every list of atoms with 1, 4 or 9 orbitals each, the per-atom orbital index ranges are consecutive, disjoint, ordered and cover 0..norb-1 exactly, and the orbital-to-atom map is their inverse.", "quantifier": "all atom lists", "why_tests_cant": "Any number of atoms.", "anchors": ["hotbit/elements.py: Elements.__init__, get_property_lists"]}
{"id": "C24", "title": "Slater-Koster blocks are consistent rotations", "statement": "For every unit bond direction the block of matrix elements is what the orbitals give when expanded in any frame whose third axis is the bond, with only the tabulated integrals in that frame; rotating the bond rotates the block. In particular the Slater-Koster coefficients of the pp and dd blocks sum over channels to the identity, the sigma coefficients factorise into those of the s row, and channel matrices are mutually orthogonal projectors.", "quantifier": "all unit bond directions, frames, tables and orbitals", "why_tests_cant": "A continuum of directions; polynomial identities.", "anchors": ["hotbit/c/slako.c: fast_slako_transformations"]}
{"id": "C25", "title": "Slater-Koster derivatives are the derivatives", "statement": "For every bond vector R != 0 the tabulated derivative of each Slater-Koster coefficient is its gradient with respect to R.", "quantifier": "all bond vectors", "why_tests_cant": "Continuum.", "anchors": ["hotbit/c/slako.c: fast_slako_transformations"]}
{"id": "C26", "title": "Reversing a bond transposes the matrix elements", "statement": "Swapping the two atoms (and the two orderings of the table) transposes the block of matrix elements up to the parity the code applies when reading tables, so that H and S are Hermitian.", "quantifier": "all bond directions, all table values", "why_tests_cant": "Continuum.", "anchors": ["hotbit/interactions.py: read_tables", "hotbit/c/slako.c"]}
{"id": "C27", "title": "Repulsive forces are the negative gradient of the repulsive energy", "statement": "For every set of positions, symmetry images and displacement of all atoms, the derivative of the repulsive energy is minus the work of the repulsive forces; with translations only the forces sum to zero; the energy is the sum of the pair energies; the call fails exactly when two atoms within the cutoff are closer than 1e-10 Bohr.", "quantifier": "all positions, displacements, numbers of atoms, sets of symmetry images closed under inverse, and tables", "why_tests_cant": "A finite-difference test samples a few structures and tolerances; the identity must hold at every structure, for every potential and with every set of images.", "anchors": ["hotbit/repulsion.py: Repulsion.get_repulsive_energy, get_pair_repulsive_energy, get_repulsive_forces"]}
{"id": "C28", "title": "Pair potentials are converted to atomic units correctly", "statement": "A pair potential given in eV and Angstrom is used as V(r*Bohr)/Hartree with its derivative, and after every history of add_pair_potential calls the pair forces are minus the gradient of the pair energy.", "quantifier": "all potentials, distances, call histories, positions and displacements", "why_tests_cant": "A test with one potential and a distance near 1 Bohr can hide the error; the conversion must be right for every function.", "anchors": ["hotbit/pairpotential.py: PairPotential.add_pair_potential, _get_full_v, get_energy, get_forces"]}
{"id": "C29", "title": "Keys of atom and element pairs do not collide", "statement": "Two different atom-index pairs never share a pair-potential key, two different pairs of element symbols never share a table key, and a table key is split back into its two symbols.", "quantifier": "all index pairs and element symbols", "why_tests_cant": "Collisions appear only for particular large indices that a test would not contain.", "anchors": ["hotbit/pairpotential.py: ij2s", "hotbit/auxil.py: separate_symbols"]}
{"id": "C30", "title": "Van der Waals pair correction", "statement": "The vdW pair coefficients are symmetric in the two atoms and reduce to the element values for equal atoms; the returned derivative is the derivative of the returned potential.", "quantifier": "all parameters and distances > 0", "why_tests_cant": "Continuum.", "anchors": ["hotbit/vdw.py"]}
{"id": "C31", "title": "The vdW coefficient and polarizability conversions are inverse", "statement": "p_from_C6 inverts C6_from_p and vice versa on non-negative values, for every number of valence electrons.", "quantifier": "all non-negative p, C6 and electron numbers", "why_tests_cant": "An inverse law over a continuum of values.", "anchors": ["hotbit/vdw.py: C6_from_p, p_from_C6"]}
{"id": "C32", "title": "The Coulomb solver cache follows the atoms", "statement": "The electrostatic potential returned by the direct and the multipole Coulomb solvers is the one of the atoms, charges and cell passed last, for every sequence of calls, including calls repeated after an exception.", "quantifier": "all call histories, positions, charges, cells and solvers", "why_tests_cant": "Staleness depends on call order; a test exercises one order.", "anchors": ["hotbit/coulomb/direct_coulomb.py: DirectCoulomb.update", "hotbit/coulomb/multipole_expansion.py: MultipoleExpansion.update"]}
{"id": "C33", "title": "Multipole index maps are bijections and all array accesses stay inside", "statement": "lm2index is a bijection from 1<=m<=l<=l_max to 0..size-1, running counters over (l,m) agree with it, entries of the rotation matrices have distinct places, and every array access in the solid harmonics, the shifts, the local expansion and the rotation of multipoles is inside its array.", "quantifier": "all l_max accepted by the C functions", "why_tests_cant": "Out-of-bounds writes in C need not be visible in any test, and l_max is unbounded.", "anchors": ["hotbit/c/multipole.c", "hotbit/c/spherical.c", "hotbit/c/spherical.h: lm2index"]}
{"id": "C34", "title": "Telescoped periodic images are counted exactly once", "statement": "For every expansion factor n and depth k in every direction, near field plus telescoped far field together contain each periodic image of the n^k super cell exactly once.", "quantifier": "all n, k and symmetry ranges of the three directions", "why_tests_cant": "All n and k; a missing or doubled image changes the potential only slightly.", "anchors": ["hotbit/coulomb/multipole_expansion.py: MultipoleExpansion.__init__, _update", "hotbit/neighbors.py: n_from_ranges"]}
{"id": "C35", "title": "Orbital stamps on the grid are aligned and inside the grid", "statement": "When an orbital's partial grid is added to the total grid, both slices have equal length, lie inside their arrays and map the same physical point to the same point, and every overlapping point is included.", "quantifier": "all grid sizes and orbital positions", "why_tests_cant": "All integers.", "anchors": ["hotbit/grids.py: Grids.get_grid_basis_orbital"]}
{"id": "C36", "title": "The grid density uses the occupation numbers", "statement": "get_grid_density equals the sum over k and states of weight times occupation times |psi|^2.", "quantifier": "all occupations", "why_tests_cant": "All real occupations.", "anchors": ["hotbit/grids.py: Grids.get_grid_density"]}
{"id": "C37", "title": "Mulliken populations add up", "statement": "Atomic Mulliken populations sum to the number of electrons, basis-function and angular-momentum populations sum to the atomic ones.", "quantifier": "all density matrices", "why_tests_cant": "Any number of orbitals.", "anchors": ["hotbit/analysis/mulliken.py", "hotbit/states.py"]}
{"id": "C38", "title": "Bond analysis decomposes the energy exactly", "statement": "The sum of atom energies and bond energies over all pairs equals the total (band structure + repulsion + Coulomb minus free atoms) energy.", "quantifier": "all Hermitian density matrices, Hamiltonians and overlaps", "why_tests_cant": "Any number of orbitals.", "anchors": ["hotbit/analysis/mulliken.py: bond analysis"]}
{"id": "C39", "title": "Even CPU load distribution covers all work", "statement": "For non-negative sizes, even_cpu_load(N,ncpu) gives every item of N (or, with indices=True, every position of N) to exactly one of the ncpu CPUs, in order; apart from its last item no CPU gets more than the average load; it raises exactly when there are fewer items than CPUs (or no CPU).", "quantifier": "all lists of non-negative sizes, all CPU counts, all powers", "why_tests_cant": "The greedy loop could drop or double items for particular lists only; all lists must be covered.", "anchors": ["box/mix.py: even_cpu_load"]}
{"id": "C40", "title": "Divisors and greatest common divisor", "statement": "divisors(x) returns exactly the positive divisors of x>0 in descending order; gcd returns the greatest common divisor.", "quantifier": "all integers", "why_tests_cant": "All integers.", "anchors": ["box/mix.py: divisors, gcd"]}
{"id": "C41", "title": "Rotation matrices rotate", "statement": "rotation_matrix(axis,angle) is orthogonal with determinant one, fixes the axis, and angles add under composition.", "quantifier": "all axes and angles", "why_tests_cant": "Continuum.", "anchors": ["box/mix.py: rotation_matrix"]}
{"id": "C42", "title": "phival returns the polar angle", "statement": "phival(x,y) lies in [0,2*pi) and its cosine and sine are x/r and y/r, for every (x,y) outside the numerical zero.", "quantifier": "all x, y", "why_tests_cant": "Continuum with quadrant cases.", "anchors": ["box/mix.py: phival"]}
{"id": "C43", "title": "Timers enforce strict nesting", "statement": "For every sequence of start/stop calls: mis-nested or unmatched calls raise, and accepted sequences are well nested.", "quantifier": "all call sequences", "why_tests_cant": "All histories.", "anchors": ["box/timing.py: Timer"]}
{"id": "C44", "title": "Spline tables interpolate and vanish outside their range", "statement": "MultipleSplineFunction returns the table value at every grid point, zero outside the grid, and the returned derivative is the derivative of the returned value; the second derivatives satisfy the natural-spline equations.", "quantifier": "all tables and arguments", "why_tests_cant": "All tables, continuum of arguments.", "anchors": ["box/interpolation.py: MultipleSplineFunction"]}
{"id": "C45", "title": "Time and file-name helpers", "statement": "sec_to_time decomposes any time into days, hours (<24), minutes (<60) and seconds (<60) that add up to it (to the nearest second); base_and_extension splits any file name into the part before and the part after the last dot.", "quantifier": "all times and names", "why_tests_cant": "All inputs.", "anchors": ["box/mix.py: sec_to_time, base_and_extension"]}
{"id": "C46", "title": "Smoothed table tails", "statement": "tail_smoothening keeps the values before the tail, ends in zero, and the tail passes through the last two kept points with a double zero at the end; a table that cannot be smoothed is reported.", "quantifier": "all tables on increasing grids", "why_tests_cant": "All tables.", "anchors": ["hotbit/parametrization/util.py: tail_smoothening"]}
{"id": "C47", "title": "Radial shooting solves the discretised equation", "statement": "Whenever the integration meets no division by zero, the function returned by shoot satisfies the finite-difference equation at every interior grid point except the matching point; the returned mismatch is zero exactly when it holds there too; the matching point is the outermost point with positive c0 (or the middle of the grid). It is exactly known when no matching point is found.", "quantifier": "all coefficient arrays, grid sizes and starting values", "why_tests_cant": "All arrays.", "anchors": ["hotbit/parametrization/atom.py: shoot"]}
{"id": "C48", "title": "Radial Hartree potential obeys Gauss' law", "statement": "The shell volumes sum to the volume of the sphere; the Hartree potential at every grid point is that of concentric charged shells, nel/r_max at the outermost point; for a nonnegative density it decreases outwards and lies between nel/r_max and nel/r; the initial density integrates to the number of electrons.", "quantifier": "all grids and densities", "why_tests_cant": "All arrays.", "anchors": ["hotbit/parametrization/atom.py: RadialGrid, calculate_Hartree_potential, guess_density"]}
{"id": "C49", "title": "PW92 potential is consistent with the energy", "statement": "e_x and e_corr with der=1 are the derivatives of those with der=0 for every positive density, and the exchange-correlation potential is the derivative of the energy density except at the cut-off density; both energies are negative.", "quantifier": "all densities", "why_tests_cant": "Continuum.", "anchors": ["hotbit/parametrization/atom.py: XC_PW92"]}
{"id": "C50", "title": "Ionisation potential and electron affinity fit", "statement": "The IP and EA returned by the quadratic fit reproduce the two computed ion energies exactly for any numbers of removed and added electrons.", "quantifier": "all energies and electron numbers > 0", "why_tests_cant": "Continuum.", "anchors": ["hotbit/parametrization/util.py: IP_EA"]}
{"id": "C51", "title": "Changing the symmetry of the atoms takes effect", "statement": "If the atoms passed to get_potential_energy or get_forces have other periodicity or another container symmetry (hence other symmetry-operation ranges) than those the calculator was initialised with, the returned values are those of the new atoms with their own symmetry.", "quantifier": "all call histories and atoms", "why_tests_cant": "depends on which call last refreshed the stored symmetry ranges; a test only samples a few histories", "anchors": ["hotbit/elements.py: Elements.set_atoms, update_geometry", "hotbit/aseinterface.py: solve_ground_state"]}
{"id": "C52", "title": "The mixing steps are least-squares optimal", "statement": "Without chop, when at least two earlier iterations are remembered (Anderson; for Pulay always) and the linear algebra succeeds, the mixed vector is sum_j w_j (x_j + beta F_j) over the remembered inputs x_j and residuals F_j, with weights adding up to one for which the norm of sum_j w_j F_j is minimal; otherwise it is the linear mixture.", "quantifier": "all histories since the last reset, all vector lengths, memories and mixing constants", "why_tests_cant": "Optimality over all weights and all histories.", "anchors": ["box/misc.py: AndersonMixer.__call__", "box/pulay.py: PulayMixer.__call__"]}
{"id": "C53", "title": "A summary ends all timing", "statement": "After summary() no timer is running any more, and every later start(label) raises without changing anything.", "quantifier": "all call histories of a Timer, all labels and clock readings", "why_tests_cant": "Ranges over all call histories and hence all timer trees.", "anchors": ["box/timing.py: Timer.summary, get_summary, get_time, start"]}
{"id": "C54", "title": "Human readable time", "statement": "The hours, minutes and seconds printed by the timing summary add up to the time measured.", "quantifier": "all times", "why_tests_cant": "Must hold for every number of seconds.", "anchors": ["box/timing.py: Timer.human_readable_time"]}
{"id": "C55", "title": "File appendix keeps directory and type", "statement": "add_file_appendix(file,app) inserts '_app' just before the extension (at the end if there is none) of the file name, leaving directory and extension as they are.", "quantifier": "all file names and appendices", "why_tests_cant": "All names, in particular those with several dots or with dots in directory names.", "anchors": ["box/mix.py: add_file_appendix"]}
{"id": "C56", "title": "Extended copies contain each requested image once", "statement": "extended_copy with counts (k1,k2,k3) applies exactly k1*k2*k3 different allowed symmetry operations, each once to every atom, including the identity; requests with a count below one or above the number of operations of a finite direction are rejected. With explicit ranges exactly the operations of the ranges are used.", "quantifier": "all containers, parameters, atoms and requested counts or ranges", "why_tests_cant": "All counts and all finite directions M.", "anchors": ["hotbit/atoms.py: Atoms.extended_copy, Atoms._check_symmetry_operation"]}
{"id": "C57", "title": "Copies of atoms keep their symmetry", "statement": "Atoms.copy() gives atoms with the same positions, periodicity, images, rotations and allowed operations as the original, whatever parameters and positions were set before.", "quantifier": "all container types and all histories of set calls", "why_tests_cant": "All histories.", "anchors": ["hotbit/atoms.py: Atoms.copy, Atoms.__init__, container_magic", "hotbit/containers/*.py: __init__, set"]}
{"id": "C58", "title": "Scaling atoms with the container keeps the structure symmetric", "statement": "set(...,scale_atoms=True) moves the atoms by one map such that moving the image of a point is the same as taking the image, under the new parameters, of the moved point.", "quantifier": "all positions, symmetry operations, old and new parameters", "why_tests_cant": "Continuum of positions and parameters, all operations.", "anchors": ["hotbit/containers/chiral.py: set", "hotbit/containers/doublechiral.py: set", "hotbit/containers/wedge.py: set", "hotbit/containers/chiralwedge.py: set", "hotbit/containers/wedgeyaxis.py: set", "hotbit/containers/twistandturn.py: set"]}
{"id": "C59", "title": "Setting container parameters", "statement": "An accepted set() stores exactly the given parameters, leaves all others and (without scaling) the positions unchanged, and only legal wedge angles are accepted; a rejected set() changes nothing.", "quantifier": "all atoms and keyword arguments", "why_tests_cant": "All argument combinations.", "anchors": ["hotbit/containers/wedge.py: set, _set", "hotbit/containers/chiral.py: set, _set", "hotbit/containers/doublechiral.py: set, _set", "hotbit/containers/chiralwedge.py: set, _set", "hotbit/containers/wedgeyaxis.py: set, _set", "hotbit/containers/twistandturn.py: set, _set", "hotbit/containers/chiralgeneral.py: set, _set", "hotbit/containers/sphere.py: set, _set", "hotbit/atoms.py: set_container"]}
{"id": "C60", "title": "k-point input is checked", "statement": "k-sampling is refused for zero width, for meshes that are not compatible with the symmetry, and for non-zero k-points in non-periodic directions; every other mesh is accepted.", "quantifier": "all meshes, lists, widths and symmetries", "why_tests_cant": "All meshes and lists.", "anchors": ["hotbit/states.py: States.setup_k_sampling", "hotbit/elements.py: Elements.get_number_of_transformations"]}
{"id": "C61", "title": "Orbitals rotate with the symmetry operations", "statement": "The 9x9 matrix used for a symmetry operation expresses each orbital rotated by the operation as a combination of the orbitals s, p, d, as functions of position.", "quantifier": "all rotations (axis and angle), positions and orbitals", "why_tests_cant": "Continuum of axes and angles, 25 long trigonometric expressions.", "anchors": ["hotbit/interactions.py: rotation_transformation, orbital_transformations_from_angles", "hotbit/containers/wedgeyaxis.py: rotation"]}
{"id": "C62", "title": "H0(k) and S(k) are Hermitian", "statement": "For every structure, container and k-point the Hamiltonian and overlap matrices returned are Hermitian.", "quantifier": "all positions, elements, symmetry operations closed under inverses, k-points and tables", "why_tests_cant": "All structures and k-points; the diagonal blocks are Hermitian only through a cancellation between an image and its inverse.", "anchors": ["hotbit/interactions.py: get_matrices"]}
{"id": "C63", "title": "dH0 and dS are derivatives of H0 and S", "statement": "The derivative matrices are the derivatives of the blocks of H0 and S with respect to the positions of the first and of the second atom, including the rotation of the second atom's displacement in its images.", "quantifier": "all structures without a distance at the end of a table, all atom pairs, orbitals and directions", "why_tests_cant": "Continuum.", "anchors": ["hotbit/interactions.py: get_matrices", "hotbit/c/slako.c: fast_slako_transformations"]}
{"id": "C64", "title": "Fast splines on linear and power grids", "statement": "For the grids its docstring describes, FastSplineFunction never fails its interval assertion, returns the table value at every grid point and zero outside the grid, and its first and second derivatives are the derivatives of the returned value and slope, also across grid points.", "quantifier": "all tables, both grid kinds with any positive power, all arguments", "why_tests_cant": "All tables, continuum of arguments.", "anchors": ["box/interpolation.py: FastSplineFunction"]}
{"id": "C65", "title": "Trilinear interpolation", "statement": "TrilinearInterpolation returns the data value at every grid point, stays within the bounds of the data and reproduces functions linear in each coordinate, for any regular grid.", "quantifier": "all data, grids and positions inside the grid", "why_tests_cant": "All data and continuum of positions.", "anchors": ["box/interpolation.py: TrilinearInterpolation"]}
{"id": "C66", "title": "Free-atom populations add up to the valence electrons", "statement": "For elements whose non-s valence electrons fit in the p and d shells, the free populations of the basis states of an atom are between 0 and 2 and sum to its number of valence electrons, and over all atoms to the number of electrons plus the charge.", "quantifier": "all lists of elements with 1, 4 or 9 orbitals, all valence numbers and s occupations", "why_tests_cant": "Any number of atoms and real occupations.", "anchors": ["hotbit/elements.py: Elements.get_free_population, get_number_of_electrons"]}
{"id": "C67", "title": "No interacting image is left out", "statement": "After a geometry update the list of symmetry operations contains, without repetition and starting from the identity, every operation for which some atom and some image are within the range of their interaction table, and no other operation.", "quantifier": "all atoms, symmetry operations, positions and table ranges", "why_tests_cant": "Infinite families of images and positions.", "anchors": ["hotbit/elements.py: Elements.update_geometry, set_atoms"]}
{"id": "C68", "title": "Parameter files used are those asked for", "statement": "The table file used for an ordered pair of elements is the custom one for that order, else the custom one for the other order, else (only with no tables given or rest='default') an existing default file shared by both orders; the calculator refuses to start exactly when a custom file or a needed file is missing; likewise for element files; and the choice does not depend on the order of the atoms.", "quantifier": "all dictionaries, element lists and file systems", "why_tests_cant": "All dictionaries and file systems.", "anchors": ["hotbit/interactions.py: Interactions.__init__, read_tables", "hotbit/elements.py: Elements.__init__"]}
{"id": "C69", "title": "Table splines return the tabulated integrals", "statement": "At every tabulated distance the Hamiltonian and overlap splines of a pair return the tabulated integral, with the parity sign for integrals read from the table of the other order.", "quantifier": "all pairs of tables, integrals and rows", "why_tests_cant": "All tables.", "anchors": ["hotbit/interactions.py: Interactions.read_tables", "box/interpolation.py: MultipleSplineFunction"]}
{"id": "C70", "title": "The grid has the spacing asked for", "statement": "A Grids object made with spacing h (Angstrom) covers the cell and its points are h apart up to rounding the number of points.", "quantifier": "all cells and spacings", "why_tests_cant": "All real lengths; the unit of the result is not visible in a single number.", "anchors": ["hotbit/grids.py: Grids.__init__"]}
{"id": "C71", "title": "Weights of states in the grid LDOS", "statement": "get_grid_LDOS weighs every state between 0 and twice the k-point weight; a bias selects the states between the Fermi level and the bias; a window selects the states inside it, relative to the Fermi level and in eV.", "quantifier": "all energies, occupations, biases and windows", "why_tests_cant": "All real energies.", "anchors": ["hotbit/grids.py: Grids.get_grid_LDOS"]}
{"id": "C72", "title": "Angular functions are the real spherical harmonics", "statement": "angular(r,orbital) equals the real spherical harmonic of the direction of r, for each of the nine s, p and d orbitals, everywhere an orbital is defined, including s orbitals at the nucleus.", "quantifier": "all positions, all nine orbitals", "why_tests_cant": "All directions, with a case split by quadrant.", "anchors": ["hotbit/analysis/wavefunctions.py: angular"]}
{"id": "C73", "title": "Bloch functions on the grid", "statement": "get_grid_basis_orbital(I,otype,k) is the Bloch sum over the images with the complex phases of the k-point.", "quantifier": "all images and phases", "why_tests_cant": "All complex phases and any number of images; real phases hide the loss.", "anchors": ["hotbit/grids.py: Grids.get_grid_basis_orbital"]}
{"id": "C74", "title": "Density matrix and band structure energy", "statement": "The density matrix built from any states and occupations is Hermitian, its populations add up to the electrons in the states, and the band structure energy is the real number sum of occupation times expectation value of H0; adding the electrostatic shifts gives the sum of the level energies. An energy that is not real is reported.", "quantifier": "all states, occupations, k-point weights, Hermitian matrices of any size", "why_tests_cant": "Any number of orbitals and k-points.", "anchors": ["hotbit/states.py: compute_rho, get_band_structure_energy"]}
{"id": "C75", "title": "Charge guesses keep the total charge", "statement": "The guess for the charges of a new geometry has the total charge of the system whenever the charges of the previous geometries had; the sanity check accepts exactly the charges between -Z and Z.", "quantifier": "all previous charges, any number of atoms", "why_tests_cant": "All histories of charges.", "anchors": ["hotbit/states.py: guess_dq, check_mulliken_charges"]}
{"id": "C76", "title": "Forces are minus the gradient of the energy", "statement": "At self-consistency, the electronic force on an atom (band structure and Coulomb forces) is minus the derivative of band structure plus Coulomb energy when that atom moves, the occupations following the Fermi function at a fixed number of electrons.", "quantifier": "all systems, all differentiable paths of Hermitian matrices, states and interaction matrices, self-consistent at the current geometry", "why_tests_cant": "A derivative along any path in a system of any size; finite differences only sample it.", "anchors": ["hotbit/states.py: get_band_structure_forces, compute_rhoe, large_update", "hotbit/electrostatics.py: gamma_forces, construct_h1, coulomb_energy"]}
{"id": "C77", "title": "Electrostatic shifts and forces", "statement": "The electrostatic matrix element of two orbitals is the mean of the potentials at their atoms (minus the external potentials); the potential is the derivative of the Coulomb energy with respect to the charge; the Coulomb forces add up to zero.", "quantifier": "all charges, symmetric interaction matrices, external potentials", "why_tests_cant": "All matrices of any size.", "anchors": ["hotbit/electrostatics.py: construct_h1, set_dq, coulomb_energy, gamma_forces"]}
{"id": "C78", "title": "Mayer bond orders", "statement": "The Mayer bond order of two atoms does not depend on their order; for a closed shell the bond orders of an atom, including the one with itself, add up to twice its population; the bond order is returned for every orthonormal set of states.", "quantifier": "all orthonormal states, any number of orbitals and k-points", "why_tests_cant": "Complex states of any size.", "anchors": ["hotbit/analysis/mulliken.py: get_mayer_bond_order"]}
{"id": "C79", "title": "Covalent energies add up", "statement": "For every state, the covalent energies of all pairs of orbitals, of atoms or of angular momenta add up to the total covalent energy of the state; summed over the occupied states this is the band structure energy minus the on-site part.", "quantifier": "all states and Hermitian matrices", "why_tests_cant": "Complex states of any size.", "anchors": ["hotbit/analysis/mulliken.py: get_covalent_energy"]}
{"id": "C80", "title": "Logarithmic grid and radial Schroedinger equation", "statement": "The equation integrated on the logarithmic grid, with the coefficients constructed for angular momentum l, potential v and energy eps, holds for u(r_min exp x) exactly when u satisfies the radial Schroedinger equation at that radius.", "quantifier": "all twice differentiable functions, radii, potentials, energies, angular momenta", "why_tests_cant": "All functions.", "anchors": ["hotbit/parametrization/atom.py: construct_coefficients"]}
{"id": "C81", "title": "The neighbour list holds each pair within the cutoff once", "statement": "get_neighbors returns, for every pair of an atom and an image of an atom in the visited cells that are closer than the cutoff, exactly one entry with the two indices, the distance and the unit vector along their separation, and no entry for an atom with itself; without a cutoff it raises RuntimeError exactly for systems with an infinite direction. For a Bravais cell with the atoms inside the cell and the cutoff at most five cell heights no image is missed.", "quantifier": "all numbers of atoms, positions, container transformations, symmetry ranges and cutoffs; completeness: all triclinic cells", "why_tests_cant": "geometries, cells and cutoffs are continuous; missed images appear only for narrow cells", "anchors": ["hotbit/neighbors.py: get_neighbors, n_from_ranges"]}
{"id": "C82", "title": "Interaction of Slater charge densities", "statement": "The pair interaction 1/d + correction of two Slater-type charges does not depend on the order of the two atoms, its force factor is minus its derivative, it tends to a finite contact value which for equal atoms is the Hubbard U, and for equal widths it lies between 0 and both 1/d and the contact value. The matrix is returned when all U are positive and ValueError is raised otherwise.", "quantifier": "all positive U of the two atoms and all distances", "why_tests_cant": "real parameters; the two formulas for equal and unequal widths have to agree in the limit", "anchors": ["hotbit/electrostatics.py: get_Slater_gamma_correction"]}
{"id": "C83", "title": "Interaction of Gaussian charge densities", "statement": "The pair interaction 1/d + correction of two Gaussian charges is symmetric, its force factor is minus its derivative, it is positive and bounded by its finite contact value, and with the default width the contact value of equal atoms is the Hubbard U. With positive widths the matrix is returned, with no positive width ValueError is raised.", "quantifier": "all widths, all distances, every function with the value and derivative of erfc", "why_tests_cant": "real parameters and distances", "anchors": ["hotbit/electrostatics.py: get_Gaussian_gamma_correction"]}
{"id": "C84", "title": "The gamma matrix is symmetric and its derivative gives the forces", "statement": "The matrix of charge-density corrections including all visited periodic images is symmetric, and the forces built from the returned derivative matrix are minus the gradient of the correction energy with respect to the atomic positions (in Bohr).", "quantifier": "all charges, positive U or widths, positions, displacements, given or estimated cutoffs; all Bravais containers and any container whose visited images are closed under inversion; no pair coincident or exactly at the cutoff", "why_tests_cant": "statement about derivatives for every geometry and cell", "anchors": ["hotbit/electrostatics.py: get_Slater_gamma_correction, get_Gaussian_gamma_correction, Electrostatics.gamma_forces", "hotbit/neighbors.py: get_neighbors"]}
{"id": "C85", "title": "The automatic cutoff meets the accuracy goal", "statement": "When no cutoff is given for a periodic system, every neglected pair term is smaller than 10^-accuracy_goal.", "quantifier": "all U, widths and distances beyond the estimated cutoff", "why_tests_cant": "continuous parameters", "anchors": ["hotbit/electrostatics.py: get_Slater_gamma_correction, get_Gaussian_gamma_correction"]}
{"id": "C86", "title": "The energy gap is the distance between the frontier states", "statement": "get_energy_gap returns the energy of the lowest state above the Fermi level minus that of the highest state at or below it, over all k-points, with half the difference of their occupations; the gap is positive and, when lower states are not less occupied, the probability lies between 0 and 1. It fails exactly when there is no state on one of the two sides.", "quantifier": "all numbers of k-points and orbitals, all energies (less than 10^10 eV from the Fermi level), occupations and Fermi levels", "why_tests_cant": "energies are continuous and the scan order of the states matters", "anchors": ["hotbit/aseinterface.py: Hotbit.get_energy_gap"]}
{"id": "C87", "title": "Frontier orbitals are found", "statement": "get_state_indices(\"HOMO\") returns the k-point and band of the highest state at or below the Fermi level and (\"LUMO\") those of the lowest state above it; their energy difference is the reported gap. get_hoc/get_homo return the last band occupied more than the threshold at any k-point, get_lumo the first band occupied less; for a Gamma-point calculation the two are consecutive exactly when no band is occupied singly.", "quantifier": "all numbers of k-points and orbitals, energies, occupations and Fermi levels", "why_tests_cant": "energies are continuous; ties with the Fermi level are measure zero in tests", "anchors": ["hotbit/aseinterface.py: Hotbit.get_state_indices", "hotbit/states.py: get_homo, get_lumo"]}
{"id": "C88", "title": "The dielectric function uses every allowed excitation once", "statement": "get_dielectric_function sums over pairs of bands at the same k-point; each pair appears once, goes upwards, and has an occupation difference of at least 0.05; every such pair whose energy difference is below the cutoff and whose upper state is not full is included. With the default cutoff all excitations are included.", "quantifier": "all numbers of k-points and bands, sorted energies, decreasing occupations and cutoffs", "why_tests_cant": "index arithmetic over arbitrary bands", "anchors": ["hotbit/aseinterface.py: Hotbit.get_dielectric_function"]}
{"id": "C89", "title": "The response calculation uses every particle-hole pair below the cutoff once", "statement": "LinearResponse.run builds its basis from exactly the pairs of states i<j whose energy difference is positive and below energy_cut and whose occupations differ by more than the threshold, each once. For energies in ascending order with equally occupied degenerate states it never stops on its internal assertion; it raises RuntimeError exactly when there is no such pair (or 100000 or more), refuses a second run, complex wave functions and periodic systems.", "quantifier": "all numbers of orbitals, energies, occupations and cutoffs", "why_tests_cant": "all real energies and occupations, including degenerate and fractionally filled levels", "anchors": ["hotbit/analysis/lr.py: LinearResponse.__init__, run"]}
{"id": "C90", "title": "Transition dipoles do not depend on origin or orientation", "statement": "The Mulliken transfer charges of two states are symmetric in the states and sum to their overlap, hence to zero for different states. Therefore moving the molecule leaves all transition dipoles unchanged, and moving, rotating or reflecting it leaves all oscillator strengths unchanged.", "quantifier": "all orbital layouts, symmetric overlap matrices, orthonormal states, positions, translations and orthogonal matrices", "why_tests_cant": "continuous family of frames and wave functions", "anchors": ["hotbit/analysis/lr.py: mulliken_transfer, run"]}
{"id": "C91", "title": "The response spectrum", "statement": "The response matrix is symmetric for a symmetric charge interaction; its quadratic form is the sum of squared pair energies plus twice the interaction energy of the transition charge. Without self-consistent charges the excitation energies are the pair energies; with a positive semidefinite interaction every excitation energy is real and at least some pair energy. The oscillator strengths are non-negative and their sum equals that of the uncoupled pairs.", "quantifier": "all energies, occupations, wave functions, interactions and positions; every orthonormal set of eigenvectors", "why_tests_cant": "spectral statement for all matrices of all dimensions", "anchors": ["hotbit/analysis/lr.py: run"]}
{"id": "C92", "title": "Reported excitations", "statement": "The collectivity of an excitation lies between 1 and the number of pairs and is m when m pairs contribute equally. get_excitation(i) returns the i-th excitation, counted from zero, with oscillator strength at least 0.01, and None exactly when there are not so many.", "quantifier": "all eigenvectors, all strengths and indices", "why_tests_cant": "all spectra", "anchors": ["hotbit/analysis/lr.py: run, get_excitation"]}
{"id": "C93", "title": "Broadening conserves the weight of a spectrum", "statement": "mix.broaden returns, at every grid point, the sum over the peaks of height times the Gaussian or Lorentzian of the given width. Each peak is positive, symmetric, highest at its centre and has unit area (one half, respectively exp(-1/2), of the maximum at a distance of one width), so the area under the curve is the sum of the heights and spectra add up. The grid has the requested number of evenly spaced points between the given limits, or the extreme peaks widened by four widths when extend is set. It raises only for an empty spectrum without limits and for an unknown function.", "quantifier": "all peak positions and heights, positive widths, grids and limits", "why_tests_cant": "improper integral of all curves; all spectra", "anchors": ["box/mix.py: broaden, lorentzian, gauss_fct"]}
{"id": "C94", "title": "The density of states counts every state once", "statement": "get_density_of_states without broadening returns each state once with its energy, k-point weight and occupation in matching order; with normalised k-point weights the weights sum to the number of orbitals and weights times occupations sum to the number of electrons. With broadening it returns the sum of the broadened states on a grid over the window (default: lowest to highest state), whose area is the number of orbitals. Occupations together with broadening or projection raise AssertionError.", "quantifier": "all numbers of k-points and orbitals, energies, occupations, weights, widths and windows", "why_tests_cant": "all band structures", "anchors": ["hotbit/analysis/mulliken.py: DensityOfStates.get_density_of_states"]}
{"id": "C95", "title": "Local and projected densities of states add up to the total", "statement": "For normalised states the local densities of states of all atoms add up to the density of the states in the window, and without a window to the full density of states; the angular momentum parts of each atom add up to its local density and the internal assertion never fires. The projected total equals the unprojected one without a window; with a window it lacks the tails of the states outside while the unprojected one includes them. Projection on a window without states raises IndexError.", "quantifier": "all orbital layouts, overlap matrices, normalised states, k-point weights, windows and grids", "why_tests_cant": "identity over all wave functions; the difference shows only near the window edges", "anchors": ["hotbit/analysis/mulliken.py: DensityOfStates.get_local_density_of_states, get_density_of_states"]}
{"id": "C96", "title": "The Ewald potential is a symmetric linear response to the charges", "statement": "EwaldSum gives potentials that are linear in the charges and reciprocal (the potential of one set of charges acting on another equals the reverse); the energy changes with a charge by the potential there plus a quadratic term. Moving all atoms together changes nothing. The potential of a charge on itself is the limit of the potential of a close neighbour less the bare 1/r, and the long-range part solves the Poisson equation for Gaussian charge clouds. The sum is undefined only when an atom coincides with another or with an image.", "quantifier": "all cells, positions, charges, accuracies and weights, any function in place of erfc", "why_tests_cant": "identities over all charges and geometries", "anchors": ["hotbit/coulomb/ewald_sum.py: EwaldSum.update, get_potential_energy"]}
{"id": "C97", "title": "The waves of the Ewald sum have the periodicity of the lattice", "statement": "Every plane wave of the reciprocal sum repeats along every cell vector, so that moving any atoms by lattice vectors leaves the long-range potential unchanged.", "quantifier": "all cells of non-zero volume, all wave indices, positions and charges", "why_tests_cant": "the shipped tests use cubic cells, for which the statement holds; it must hold for every cell", "anchors": ["hotbit/coulomb/ewald_sum.py: EwaldSum.update (rec_cell_vc, G)"]}
{"id": "C98", "title": "The Ewald sum includes everything within its cutoffs", "statement": "All lattice translations shorter than the real-space cutoff and all reciprocal vectors shorter than the reciprocal cutoff are summed, and beyond the cutoffs the Gaussian factors are smaller than 10^(-accuracy_goal).", "quantifier": "all cells of non-zero volume, accuracies and weights", "why_tests_cant": "all cell shapes; tests use orthogonal cells", "anchors": ["hotbit/coulomb/ewald_sum.py: EwaldSum.update (maxGx, maxrx, G_cutoff, r_cutoff)"]}
{"id": "C99", "title": "Fortran number lists are read item by item", "statement": "A line of numbers separated by blanks and commas reads as its numbers in order; an item n*v stands for n copies of v, an exponent may be written with D, and an item that is not a number makes the line an error.", "quantifier": "all lines made of such items with any separators, any number syntax", "why_tests_cant": "all combinations of items, repetitions and separators", "anchors": ["hotbit/io/fortran.py: fortran_readline"]}
{"id": "C100", "title": "A key in a data file yields the value written for it", "statement": "Looking up a key returns the value of the first line that names it: its first word, its words, the rest of the line as one string, a boolean, or the table or lines that follow; testing tells whether some line names the key; a missing key gives the default or an error, and a key that only prefixes or resembles another never matches.", "quantifier": "all files, keys and values", "why_tests_cant": "all files and positions of the key", "anchors": ["box/mix.py: find_value"]}
{"id": "C101", "title": "Arrays written to a file read back", "statement": "Reading takes the first data set: leading blank and comment lines are skipped, comments inside are ignored, and the set ends at a blank line, where the next read continues. A written array reads back with its shape, each number as its written text reads. A word that is not a number is an error.", "quantifier": "all files, arrays and number formats", "why_tests_cant": "all layouts of comments and blanks, all arrays", "anchors": ["box/mix.py: read, write"]}
{"id": "C102", "title": "The reader is chosen by the file name", "statement": "Element, table and repulsion readers choose the format by the extension in upper or lower case; .elm, .par, .skf and .spl are supported, and a format that lacks the requested data is reported as a runtime error.", "quantifier": "all file names", "why_tests_cant": "all names", "anchors": ["hotbit/io/__init__.py: filetype, read_element, read_HS, read_repulsion"]}
{"id": "C103", "title": "Every basis orbital gets the on-site energy of its own shell", "statement": "The on-site energies that an element data reader returns match the basis orbitals: s, p and d orbitals carry the energies given in the file for the s, p and d valence orbitals.", "quantifier": "all element files and all elements with valence data", "why_tests_cant": "all elements and files; tests use a few main group elements", "anchors": ["hotbit/io/native.py: read_element_from_elm", "hotbit/io/dftb.py: read_element_from_skf", "box/data.py: data"]}
{"id": "C104", "title": "Converted .skf files read back the tables and element data they were made from", "statement": "A file made by the converter reads back the on-site energies, the Hubbard parameter and every row of the Slater-Koster table, each number as its written text reads, at the distances where the table had them.", "quantifier": "all tables, elements, number formats, homonuclear and heteronuclear", "why_tests_cant": "all tables, in particular all patterns of zeros in rows", "anchors": ["hotbit/io/hb2skf.py: generate_DFTBplus_header", "hotbit/io/dftb.py: read_element_from_skf, read_HS_from_skf"]}
{"id": "C105", "title": "Tables of .skf files are on the grid of their header", "statement": "Reading a table returns the rows up to the spline block or the end of the file, the i-th row at i times the spacing of the header; rows of different lengths, or a heteronuclear header that is not two numbers, are errors.", "quantifier": "all files", "why_tests_cant": "all files", "anchors": ["hotbit/io/dftb.py: read_HS_from_skf"]}
{"id": "C106", "title": "The repulsion of an .skf file is tabulated as the file describes it", "statement": "The tabulated repulsion is the exponential before the first knot and the spline piece that contains the distance after it; pieces that do not join are an error.", "quantifier": "all spline files, all grids", "why_tests_cant": "all files and positions of knots against grid points", "anchors": ["hotbit/io/dftb.py: read_repulsion_from_skf"]}
{"id": "C107", "title": "A polynomial repulsion goes to zero smoothly at its cutoff", "statement": "Without splines the repulsion is the polynomial of the coefficients c2..c9 in (cutoff - r), tabulated up to the cutoff, where it vanishes with its derivative.", "quantifier": "all files, coefficients and grids", "why_tests_cant": "all files", "anchors": ["hotbit/io/dftb.py: read_repulsion_from_skf"]}
{"id": "C108", "title": "Native parameter files give their tables and repulsion", "statement": "Reading a .par file returns the table of the pair and its repulsion with their distances; a file for identical tables may use X_X_table; a repulsion that cannot be read is an error.", "quantifier": "all files and pairs of elements", "why_tests_cant": "all files", "anchors": ["hotbit/io/native.py: read_HS_from_par, read_repulsion_from_par"]}
{"id": "C109", "title": "Rotation axes of a sphere are directions", "statement": "The symmetry operations of a Sphere container depend only on the directions of the two axes given to set(), not on their lengths.", "quantifier": "all axes, angles and operations", "why_tests_cant": "continuum of axes and angles", "anchors": ["hotbit/containers/sphere.py: set, rotation"]}
{"id": "C110", "title": "Merging of close data points conserves the data", "statement": "Before a fit, data points at nearly equal distances are merged into their weighted average; no weight is lost or made up, merged distances are strictly increasing and lie between the distances of the points they come from, the result does not depend on the order in which the points were added, and points closer than the tolerance end up as one point.", "quantifier": "all lists of data points", "why_tests_cant": "unbounded lists of real data; closeness depends on digit boundaries", "anchors": ["hotbit/parametrization/fitting.py: RepulsiveFitting.fit, _group_closeby_points"]}
{"id": "C111", "title": "A fit depends on the data only", "statement": "The result of a fit of the repulsive derivative depends on the set of data points and on the settings given by the user only: not on the order in which points were added, nor on fits made before; the points used are strictly increasing, end at the cutoff with value 0 and the largest weight, and a fit that the data allow with a lower spline order is made with the lower order.", "quantifier": "all sets of data points, settings and histories of fits", "why_tests_cant": "depends on arbitrary histories of calls and on sets of data", "anchors": ["hotbit/parametrization/fitting.py: RepulsiveFitting.fit"]}
{"id": "C112", "title": "The repulsive potential is the integral of the fitted derivative", "statement": "After a fit, the potential vanishes at and beyond the cutoff, equals the integral of the fitted derivative from the cutoff at every distance, decreases where the derivative is negative, and the derivative returned for a distance is the derivative of the potential returned.", "quantifier": "all fitted derivatives, cutoffs and distances", "why_tests_cant": "continuum of distances", "anchors": ["hotbit/parametrization/fitting.py: RepulsiveFitting.__call__, fit, _integrate_vrep"]}
{"id": "C113", "title": "Slope from a scalable system", "statement": "Adding a system whose bonds all have the same length adds one data point at that length, with minus the derivative of the electronic energy with respect to the length, per bond.", "quantifier": "all energies as a function of the bond length, all lengths and numbers of bonds", "why_tests_cant": "continuum of energy functions", "anchors": ["hotbit/parametrization/fitting.py: RepulsiveFitting.append_scalable_system, append_dimer"]}
{"id": "C114", "title": "Energy per bond is divided by the right number of bonds", "statement": "The list of bonds below the cutoff that fitting uses accounts for the repulsive energy: the repulsive energy of a structure is the sum of the pair potential over the list, so the number of bonds in it is the factor of the potential if all bonds have the same length.", "quantifier": "all structures, images, elements and cutoffs", "why_tests_cant": "structures and periodic images are unbounded", "anchors": ["hotbit/repulsion.py: get_repulsion_distances, get_repulsive_energy", "hotbit/parametrization/fitting.py: RepulsiveFitting.append_scalable_system, append_energy_curve"]}
{"id": "C115", "title": "Energy curves give one point per frame with the weight shared", "statement": "Adding an energy curve adds one data point for each frame whose bonds are below the cutoff, at increasing distances, with weights whose squares add up to the square of the weight given; if the reference energy differs from the calculated one by a cubic function of the bond length per bond, the points have the exact derivative; with default arguments the call works.", "quantifier": "all sequences of frames", "why_tests_cant": "unbounded sequences of frames", "anchors": ["hotbit/parametrization/fitting.py: RepulsiveFitting.append_energy_curve, append_equilibrium_trajectory"]}
{"id": "C116", "title": "Data points are never lost", "statement": "Through any history of calls, data points added earlier stay unchanged and in order; a call that fails leaves the data points, the comments and the fitted potential as they were; the comments of the file are those of the successful calls, in order, joined by |.", "quantifier": "all histories of calls, with failures", "why_tests_cant": "arbitrary histories", "anchors": ["hotbit/parametrization/fitting.py: RepulsiveFitting.append_point, append_scalable_system, append_dimer, append_energy_curve, append_equilibrium_trajectory, append_homogeneous_cluster, add_comment, fit"]}
{"id": "C117", "title": "Any number of systems can be added without giving colours", "statement": "A system can be added without giving a colour however many systems were added before.", "quantifier": "all histories of calls", "why_tests_cant": "arbitrary histories", "anchors": ["hotbit/parametrization/fitting.py: RepulsiveFitting._get_color"]}
{"id": "C118", "title": "Homogeneous clusters fit the exact linear repulsion", "statement": "The function minimised for a cluster compares reference forces with calculated forces plus those of a repulsion with a linear derivative: it is never negative, is zero exactly if all forces agree, and is convex in the two parameters; the six points added lie on the fitted line, between the shortest and the longest bond, and share the weight.", "quantifier": "all clusters, forces, parameters", "why_tests_cant": "continuum of structures and parameters", "anchors": ["hotbit/parametrization/fitting.py: RepulsiveFitting.append_homogeneous_cluster"]}
{"id": "C119", "title": "Written parameter files hold the fitted potential, saved data can be loaded", "statement": "After a fit, the repulsion table written has 100 increasing distances and the values of the potential in Hartree units, ending with 0 at the cutoff; without a fit no unusable file is left behind; data saved can be loaded again and then give the same fit; data saved as plain text can be loaded too.", "quantifier": "all fitted potentials and data", "why_tests_cant": "continuum of potentials", "anchors": ["hotbit/parametrization/fitting.py: RepulsiveFitting.write_par, write_fitting_data, load_fitting_data"]}
{"id": "C120", "title": "A parametrization can be tested repeatedly", "statement": "A test of the parametrization can be made from a fitting any number of times, each time with the files of all its structures.", "quantifier": "all lists of structures", "why_tests_cant": "arbitrary histories", "anchors": ["hotbit/parametrization/fitting.py: ParametrizationTest.__init__"]}
{"id": "C121", "title": "Solid harmonics returned are the right polynomials", "statement": "For every vector and every degree, the arrays of regular solid harmonics hold r^l e^(im phi) P_l^m(cos theta)/(l+m)!, written as a polynomial in x, y, z (also on the z axis and at the origin), and the irregular ones the same times (l+m)!(l-m)!/r^(2l+1); the addition theorem holds for them.", "quantifier": "all vectors, degrees and orders", "why_tests_cant": "continuum of vectors, unbounded degrees, special cases at the poles", "anchors": ["hotbit/c/spherical.c: solid_harmonic_R, solid_harmonic_I, cartesian_to_spherical, py_solid_harmonic_R"]}
{"id": "C122", "title": "Multipole moments and their shift are exact", "statement": "The moments computed for a set of charges are the sums of charge times solid harmonic about the origin, and adding a shifted expansion to another gives exactly the moments of all the charges together about the new origin: no truncation error up to l_max.", "quantifier": "all lists of charges, origins, shifts and l_max", "why_tests_cant": "continuum of charges; unbounded l_max", "anchors": ["hotbit/coulomb/multipole_expansion.py: MultipoleExpansion._update", "hotbit/c/multipole.c: multipole_to_multipole", "hotbit/coulomb/multipole.py: get_moments"]}
{"id": "C123", "title": "Rotation of multipole moments is exact", "statement": "For every orthogonal matrix (proper or not), the transformed moments are exactly those of the charges turned about the origin.", "quantifier": "all orthogonal matrices, charges and l_max", "why_tests_cant": "continuum of rotations; recursive construction of the matrices for unbounded l", "anchors": ["hotbit/c/multipole.c: transform_multipole, matrix_dot_multipole"]}
{"id": "C124", "title": "Telescoped moments describe the images about the stored origin", "statement": "After each step of the telescoping, the moments stored are those of all images of the charges in the block of combined cells, each cell once, about the origin stored with them.", "quantifier": "all containers, charges, numbers of cells and levels, l_max", "why_tests_cant": "unbounded levels; depends on the container", "anchors": ["hotbit/coulomb/multipole_expansion.py: MultipoleExpansion._update"]}
{"id": "C125", "title": "Shift, potential and field of local expansions are exact", "statement": "Shifting a local expansion to another centre does not change the potential it gives anywhere, and the field returned is minus the gradient of the potential returned.", "quantifier": "all expansions, centres, points", "why_tests_cant": "continuum of points", "anchors": ["hotbit/c/multipole.c: local_to_local", "hotbit/coulomb/multipole_expansion.py: MultipoleExpansion._update", "hotbit/c/spherical.c: solid_harmonic_R"]}
{"id": "C126", "title": "Error of the local expansion of distant charges", "statement": "Turning a multipole expansion of charges into a local expansion about a centre gives at every point the Coulomb potential of the charges, with an error of at most sum |q| (l_max+1) t^(l_max+1)/(D-A), where D is the distance of the centres, A the sum of the distances of the charge and the point from theirs, t = A/D < 1; so it converges to the exact potential as l_max grows.", "quantifier": "all charges, centres, points and l_max with A < D", "why_tests_cant": "continuum of geometries; error bound for all l_max", "anchors": ["hotbit/c/multipole.c: multipole_to_local"]}
{"id": "C127", "title": "Charge and dipole of an expansion", "statement": "The total charge and the dipole read from the moments are those of the charges.", "quantifier": "all charges and origins", "why_tests_cant": "continuum of charges", "anchors": ["hotbit/coulomb/multipole_expansion.py: MultipoleExpansion._update"]}
{"id": "C128", "title": "Potential of periodic charges within a bound of the direct sum", "statement": "For translations with an odd number of cells per step, the potential returned for an atom is the direct sum over all other atoms of the block of n^k cells, each once (minus the dipole correction in three dimensions), up to number of cells times total absolute charge times (l_max+1) t^(l_max+1)/((1-t)d), where t bounds the ratio of the block extents to the distances of the blocks and d the smallest distance; it converges to the direct sum as l_max grows.", "quantifier": "all cells, charges, cell numbers, depths, l_max", "why_tests_cant": "continuum of structures, unbounded depth", "anchors": ["hotbit/coulomb/multipole_expansion.py: MultipoleExpansion._update"]}
{"id": "C129", "title": "Angular parts of the two-centre integrals", "statement": "For any two polar angles, the ten angular factors are exactly the integrals, over the angle about the axis, of products of the real spherical harmonics named by the integral (dds, ddp, ..., sss); at distance zero they are orthonormal.", "quantifier": "all pairs of angles, all ten integrals", "why_tests_cant": "continuum of angles", "anchors": ["hotbit/parametrization/slako.py: g"]}
{"id": "C130", "title": "The integration grid covers the space of each atom exactly", "statement": "For any distance, range and grid size, each element of the polar grid gets exactly the area of its part on the near side of the plane in the middle, no element is rejected as illegal, the areas add up to the area of the whole region, and the points used lie in their elements, on the near side of the plane, within the range of both atoms.", "quantifier": "all distances, ranges and grid sizes", "why_tests_cant": "continuum of distances; every way a sector can be cut by the plane", "anchors": ["hotbit/parametrization/slako.py: SlaterKosterTable.make_grid"]}
{"id": "C131", "title": "Exchanging the two atoms", "statement": "On the grid made for any distance, the overlap of two orbitals is (-1)^(l1+l2) times that of the exchanged pair, exactly and not only up to the error of integration; so the overlap tables of A-B and B-A agree for integrals between equal angular momenta. If the orbital of the second atom solves the radial equation, the matrix element of the hamiltonian is exactly the second estimate (from which the reported error is made) of the exchanged pair.", "quantifier": "all elements, orbitals, distances, grids", "why_tests_cant": "continuum of radial functions and distances", "anchors": ["hotbit/parametrization/slako.py: SlaterKosterTable.calculate_mels, make_grid"]}
{"id": "C132", "title": "Tables are complete", "statement": "A table made has, for every distance asked for and each ordered pair of elements, twenty numbers: H and S of the ten integrals, zero for those without orbitals, and zero beyond twice the range of the wave functions. Any request with R1 at least 0.001 is served, and the same object can be run again.", "quantifier": "all elements, distances, grid sizes, histories of runs", "why_tests_cant": "unbounded numbers of distances; depends on the range", "anchors": ["hotbit/parametrization/slako.py: SlaterKosterTable.run, get_range"]}
{"id": "C133", "title": "Selection of integrals", "statement": "The integrals computed for a pair of elements are exactly those for which the first has an orbital with the first letter and the second one with the second letter, each once and in table order, with the last such orbital in the list of valence orbitals.", "quantifier": "all lists of valence orbitals", "why_tests_cant": "unbounded lists", "anchors": ["hotbit/parametrization/slako.py: select_orbitals, select_integrals"]}
{"id": "C134", "title": "Range of the wave functions", "statement": "The range used covers the range of every valence orbital of both elements and is at most 20 Bohr. The range of an orbital is a radius beyond which it stays below the given fraction of its maximum; it is found whenever the orbital is not zero and the fraction is less than one.", "quantifier": "all orbitals, fractions", "why_tests_cant": "continuum of functions", "anchors": ["hotbit/parametrization/slako.py: SlaterKosterTable.get_range", "hotbit/parametrization/atom.py: KSAllElectron.get_wf_range", "hotbit/element.py: Element.get_wf_range"]}
{"id": "C135", "title": "Orbitals of an atom solve the radial equation", "statement": "Whenever the solver accepts an orbital, in any effective potential, it is normalised, starts positive, has n-l-1 nodes inside the classical turning point, and solves the discretised radial equation exactly on the whole grid, except that at one point the potential is changed by an amount of which the first-order cost is at most 1e-8 (with scalar relativistic corrections: except at that point). The energy is at most the start or the limit of bound states, other orbitals are untouched, and at most 101 energies are tried.", "quantifier": "all potentials, grids, angular momenta, starting energies", "why_tests_cant": "continuum of potentials; unbounded grids; path of the search", "anchors": ["hotbit/parametrization/atom.py: KSAllElectron.solve_eigenstates, construct_coefficients", "hotbit/parametrization/atom.py: shoot"]}
{"id": "C136", "title": "A run that succeeds is self-consistent to the tolerances", "statement": "A run that returns has made at least seven iterations, each being a Kohn-Sham step with mixing from the given start; it stopped at the first iteration (after the sixth) where density and all orbital energies changed less than the tolerances. The potential returned is then close to that of the density returned.", "quantifier": "all atoms, configurations, tolerances, mixing, starts", "why_tests_cant": "unbounded sequences of iterations", "anchors": ["hotbit/parametrization/atom.py: KSAllElectron.run, calculate_veff, get_veff_and_dens"]}
{"id": "C137", "title": "Total energy is the Kohn-Sham functional", "statement": "The energy reported by a successful run is the kinetic energy of its orbitals plus the energies of nucleus and confinement, Hartree and exchange-correlation, up to first-order terms in the last change: the Hartree potential is that of the density before, and the potential of the orbitals differs from the Kohn-Sham potential of that density by mixing.", "quantifier": "all atoms and starts", "why_tests_cant": "continuum of densities", "anchors": ["hotbit/parametrization/atom.py: KSAllElectron.calculate_energies"]}
{"id": "C138", "title": "No electrons are lost", "statement": "The density of a successful run integrates to the number of electrons of the configuration; a configuration given by the user changes the number of electrons by the sum of its changes.", "quantifier": "all configurations", "why_tests_cant": "unbounded configurations", "anchors": ["hotbit/parametrization/atom.py: KSAllElectron.calculate_density, list_states, __init__"]}
{"id": "C139", "title": "Names of orbitals", "statement": "The states calculated are exactly those of the configuration with 1<=n<=9 and known letter, each once; translating (n,l) to a name and back gives (n,l).", "quantifier": "all configurations, n, l", "why_tests_cant": "unbounded n", "anchors": ["hotbit/parametrization/atom.py: orbit_transform", "hotbit/parametrization/atom.py: KSAllElectron.list_states"]}
{"id": "C140", "title": "Results are those of the last run", "statement": "After any sequence of calls the energy, orbital energies, radial functions and effective potential returned are those of the last run. Before the first run every accessor raises except the energy, which is 0.", "quantifier": "all sequences of calls", "why_tests_cant": "unbounded histories", "anchors": ["hotbit/parametrization/atom.py: KSAllElectron.run, effective_potential, Rnl, get_energy, get_epsilon"]}
{"id": "C141", "title": "Confinement potentials", "statement": "Every mode with its parameters gives the documented potential, a missing parameter or unknown mode raises; the potential at r0 is 1 (Woods-Saxon: half of W), confining potentials increase with the distance, and Woods-Saxon stays between 0 and W and tends to W.", "quantifier": "all modes, parameters, distances", "why_tests_cant": "continuum", "anchors": ["hotbit/parametrization/atom.py: ConfinementPotential"]}
{"id": "C142", "title": "The eigensolver never gives LAPACK too little memory", "statement": "For every sequence of diagonalisations of real and complex matrices of any sizes and of calls that free the workspace, every call of LAPACK gets work arrays of at least the documented size and no length that exceeds what was allocated; the arrays hold what the largest problem since the last release needed. The arrays for matrices and eigenvalues have exactly the size LAPACK writes.", "quantifier": "all sequences of calls, sizes, types, outcomes of malloc", "why_tests_cant": "unbounded histories; memory failures; sizes near overflow", "anchors": ["hotbit/c/geig.c: geigr, geigc, py_geig, py_free_geig_workspace"]}
{"id": "C143", "title": "States returned solve the generalised eigenvalue problem", "statement": "At every k-point the energies and wave functions returned solve H c = e S c with the hamiltonian including the electrostatic part, wave functions are orthonormal with respect to the overlap, energies ascend; if the overlap matrix is not positive definite an error is raised.", "quantifier": "all Hermitian H, S, k-points", "why_tests_cant": "continuum of matrices", "anchors": ["hotbit/solver.py: Solver.get_eigenvalues_and_wavefunctions, diagonalize", "hotbit/c/geig.c: py_geig"]}
{"id": "C144", "title": "Helpers for matrices", "statement": "Completing a matrix from its lower triangle gives a Hermitian matrix with this triangle; the derivative is made antihermitian; the dot product of wave functions is the bracket with the overlap; tests of properties (square, Hermitian, symmetric, orthogonal, unitary) say what they mean to the tolerance; the matrix square root is symmetric, positive and squares to the matrix.", "quantifier": "all matrices, sizes, tolerances", "why_tests_cant": "continuum of matrices", "anchors": ["hotbit/auxil.py: make_hermitian, make_derivative_antihermitian, wf_dot_product, same_matrix, matrix_has_property", "hotbit/wfpropagation.py: matrix_square_root"]}
{"id": "C145", "title": "External potentials act on the atoms", "statement": "The external potential in the hamiltonian is the sum of all potentials added so far, evaluated at the positions of the atoms and the current time; the order of adding does not matter; potentials may be added at any moment.", "quantifier": "all sequences of adding potentials, advancing time and calculating", "why_tests_cant": "unbounded histories", "anchors": ["hotbit/environment.py: Environment", "hotbit/electrostatics.py: Electrostatics.construct_Gamma_matrix", "hotbit/states.py: States.solve", "hotbit/aseinterface.py: Hotbit.solve_ground_state, _initialize"]}
{"id": "C146", "title": "Potential of a laser", "statement": "The potential of a linearly polarised laser is that of a uniform field along the polarisation with the documented amplitude, oscillating with the given photon energy; it vanishes perpendicular to the polarisation and depends only on the direction of the polarisation.", "quantifier": "all energies, fluxes, phases, polarisations, positions, times", "why_tests_cant": "continuum", "anchors": ["hotbit/environment.py: LinearlyPolarizedLaser"]}
{"id": "C147", "title": "Graphene and nanoribbons have the right bonds", "statement": "Graphene of any repetition, repeated along its cell vectors, is a honeycomb lattice: no two atoms or images coincide, none are nearer than the bond length, each has exactly three neighbours at the bond length. ZGNR, AGNR and armchair_ribbon of any width, number of units and direction, repeated along their cell vector, have exactly the promised number of atoms and the bonds of a zigzag (armchair) ribbon of that width: three per atom, fewer only at the two edges and exactly as the type of the edge demands.", "quantifier": "all sizes, widths, units, directions, bond lengths", "why_tests_cant": "unbounded families of structures, infinite periodic images", "anchors": ["box/systems.py: graphene, ZGNR, AGNR, armchair_ribbon"]}
{"id": "C148", "title": "zigzag_ribbon is a zigzag ribbon", "statement": "zigzag_ribbon of n1 units and any width, repeated along its cell vector, is a zigzag ribbon with the bond length asked for, along x or z.", "quantifier": "all sizes, directions, bond lengths", "why_tests_cant": "unbounded families of structures, infinite images", "anchors": ["box/systems.py: zigzag_ribbon"]}
{"id": "C149", "title": "Data of a nanotube are those of the wrapped sheet", "statement": "For every (n,m) but (0,0) the data returned are those of a graphene sheet wrapped along the vector (n,m): circumference its length, period the length of the shortest lattice vector perpendicular to it, hexagons the number in this cell, metallic exactly if the corner of the Brillouin zone is an allowed wave vector, angle the direction of the vector, type by the direction. Data of a tube constructed describe this tube.", "quantifier": "all n, m, bond lengths", "why_tests_cant": "unbounded integers with number-theoretic cases", "anchors": ["box/systems.py: nanotube_data, nanotube"]}
{"id": "C150", "title": "chiral_nanotube generates the whole tube", "statement": "The 2(n+m) atoms with the helical symmetry returned generate exactly the honeycomb lattice wrapped along (n,m), every site once; bonds are shorter than in the sheet by less than the curvature explains.", "quantifier": "all n, m, bond lengths, images", "why_tests_cant": "infinite images, unbounded integers", "anchors": ["box/systems.py: chiral_nanotube"]}
{"id": "C151", "title": "nanotube makes a complete tube", "statement": "The atoms of nanotube(n,m), repeated along its cell, occupy every site of the honeycomb lattice wrapped along (n,m) exactly once.", "quantifier": "all n, m, lengths, bond lengths", "why_tests_cant": "unbounded integers; failure only for tubes that tests never build", "anchors": ["box/systems.py: nanotube"]}
{"id": "C152", "title": "CNT_list lists the tubes up to (19,19)", "statement": "The list has every tube with n up to 19 and m up to n with diameter of at least 2.", "quantifier": "all n, m", "why_tests_cant": "the early exit of the loop depends on the order of diameters", "anchors": ["box/systems.py: CNT_list"]}
{"id": "C153", "title": "The numerical check of forces measures the error of forces", "statement": "check_forces and check_field leave positions as they were. The numerical forces are central differences of the energy (the potential at the moved atom); the difference returned is the greatest over atoms and axes. If the energy is smooth, every force differs from minus the derivative of the energy by no more than the difference returned plus the error of the central difference, and correct forces give a difference of no more than this error.", "quantifier": "all numbers of atoms, positions, energies, forces, steps", "why_tests_cant": "energies and steps are arbitrary; the error bound is a statement over a continuum", "anchors": ["box/fd_forces.py: check_forces, check_field"]}
{"id": "C154", "title": "The numerical stress is the strain derivative and the cell is restored", "statement": "check_virial returns for every component (Voigt order, off-diagonal symmetrised) the central difference of the energy when cell and atoms are strained, per volume; the atoms are left as they were.", "quantifier": "all cells, atoms, energies, steps", "why_tests_cant": "arbitrary energies and cells", "anchors": ["box/fd_forces.py: check_virial"]}
{"id": "C155", "title": "Bending turns translations into rotations of the wedge", "statement": "setup_bending of a structure periodic along z gives positions such that the images of the wedge are exactly the bent images of the periodic structure; distances are those on the cylinder of the atom; structures that cannot be bent are not accepted; the rotation asked for is made.", "quantifier": "all cells, structures, angles, radii, rotations, images", "why_tests_cant": "infinite images, arbitrary structures", "anchors": ["box/distort.py: setup_bending", "containers/wedge.py: Wedge.transform"]}
{"id": "C156", "title": "Scans of grid data follow the contour", "statement": "scan, linescan and broadened_linescan of GridData give at each point the height where the interpolated data is the threshold, to half the tolerance, the highest if the top is below the threshold; the value for no contour exactly if no pair of planes encloses the threshold. The distances are those seen from above; broadened lines are parallel at equal spacing over the width and their highest is taken. get_max_over_xy is the greatest value in the plane.", "quantifier": "all grids, boxes, thresholds, lines", "why_tests_cant": "arbitrary data; the bisection must end and stay correct for each", "anchors": ["box/grids.py: GridData, scan, linescan, broadened_linescan, get_max_over_xy, find_height"]}
{"id": "C157", "title": "Random numbers have the distribution asked for", "statement": "ArbitraryDistribution of a positive function draws numbers in its range whose distribution function is the (trapezoidal) integral of the function, exactly at grid points, increasing between; get_norm is the integral.", "quantifier": "all positive functions, ranges, uniform numbers", "why_tests_cant": "continuum of functions and random numbers", "anchors": ["box/random.py: ArbitraryDistribution", "box/interpolation.py: SplineFunction.solve"]}
{"id": "C158", "title": "The images of a saddle form a group of isometries", "statement": "Every image of the saddle container is an isometry whose linear part is the rotation returned; images along one direction compose like integers; images along both directions compose like pairs of integers.", "quantifier": "all angles, radii, points, image numbers", "why_tests_cant": "infinitely many images", "anchors": ["containers/saddle.py: transform, rotation"]}
{"id": "C159", "title": "The results do not depend on the eigenvectors chosen by LAPACK", "statement": "A whole calculation (matrices, self-consistency cycle with any of the mixers, energy, charges, density matrices, forces) with two eigensolvers that both solve the eigenvalue problem gives the same answer: the same exception or failure to converge, or the same number of iterations, eigenvalues, occupations, charges, density matrices, energies and forces, however phases and bases of degenerate eigenvectors are chosen and whatever arrays contain before they are filled.", "quantifier": "all structures, symmetries, k-points, parameters, mixers, tolerances, eigensolvers meeting the LAPACK contract", "why_tests_cant": "the choice in degenerate spaces is arbitrary and differs between LAPACK versions; a test sees one", "anchors": ["hotbit/states.py: solve, update", "hotbit/solver.py: get_states, diagonalize", "hotbit/aseinterface.py: get_potential_energy, get_forces", "hotbit/electrostatics.py"]}
{"id": "C160", "title": "Renumbering the atoms renumbers the results", "statement": "Two structures that differ in the order of the atoms give the same energies, eigenvalues, occupations and number of iterations; charges and forces are those of the corresponding atoms.", "quantifier": "all structures, permutations, symmetries, k-points, parameters, mixers, tolerances", "why_tests_cant": "all permutations of all structures", "anchors": ["hotbit/interactions.py: get_matrices, read_tables", "hotbit/states.py: solve", "hotbit/electrostatics.py", "hotbit/repulsion.py", "hotbit/pairpotential.py", "hotbit/aseinterface.py: get_potential_energy, get_forces"]}
{"id": "C161", "title": "Energy and charges do not change and forces turn when the structure is rotated, reflected or translated", "statement": "If positions, cell and symmetry operations are mapped by one orthogonal transformation and translation, then energies, eigenvalues, occupations, charges and number of iterations are the same, forces and fields are transformed like vectors, and the density matrix like products of s, p and d orbitals.", "quantifier": "all structures, orthogonal matrices, translations, symmetries, k-points, parameters, mixers, tolerances", "why_tests_cant": "a continuum of rotations; depends on all Slater-Koster transformations", "anchors": ["hotbit/interactions.py: get_matrices", "hotbit/c/slako.c", "hotbit/states.py: solve", "hotbit/electrostatics.py", "hotbit/repulsion.py", "hotbit/coulomb/direct_coulomb.py", "hotbit/aseinterface.py: get_potential_energy, get_forces"]}
{"id": "C162", "title": "The direct Coulomb solver sums over all images, and its forces are minus the derivative of its energy", "statement": "The potential at an atom is the sum over all other charges and images of the scanned cells of q/d (without cutoff) or q erfc(d/cutoff)/d (within the cutoff); the matrix is symmetric, the energy is half of q times potential, the forces are minus the derivatives of the energy for any direction of motion; and the potential varies continuously.", "quantifier": "all numbers of atoms, positions, charges, sets of symmetry operations closed under inversion, cutoffs", "why_tests_cant": "infinitely many geometries; sums over images with arbitrary symmetry operations", "anchors": ["hotbit/coulomb/direct_coulomb.py: DirectCoulomb._update, get_potential_energy, get_forces, get_gamma", "hotbit/neighbors.py: get_neighbors"]}
{"id": "C163", "title": "Forces of a whole calculation are minus the derivative of its free energy", "statement": "If one atom of any structure is displaced and everything is calculated anew (matrices from tables, eigenstates, Fermi occupations, charges, electrostatics, repulsion, pair potentials), then the component of the force returned for that atom is minus the derivative of potential energy - width * entropy, with and without charge self-consistency.", "quantifier": "all structures, symmetries, k-points, tables, databases, electronic temperatures, atoms and directions", "why_tests_cant": "a derivative of results of whole calculations, for every structure; numerical tests have truncation errors and see a few structures", "anchors": ["hotbit/aseinterface.py: get_forces, get_potential_energy", "hotbit/states.py: solve, band_structure_forces", "hotbit/interactions.py: get_matrices", "hotbit/electrostatics.py: gamma_forces", "hotbit/coulomb/direct_coulomb.py", "hotbit/repulsion.py", "hotbit/pairpotential.py", "hotbit/occupations.py"]}
{"id": "C164", "title": "Vectors and distances between atoms go to the nearest image", "statement": "vector(ri,rj) is rj-ri up to vectors of the periodic directions of the cell, and no image is nearer; distance is its length, the least over images; it is symmetric, satisfies the triangle inequality and vanishes exactly for images of the same point. distance(ri) is the length of the vector to the nearest image of ri.", "quantifier": "all cells, periodicities, positions", "why_tests_cant": "a minimum over infinitely many images, for all positions", "anchors": ["box/atoms.py: Atoms.vector, distance, get_cell_axes"]}
{"id": "C165", "title": "Atoms of a structure with a calculator are within the cell", "statement": "After set_positions or set_calculator, atoms of a structure with a calculator are within the cell, each being an image of the position given; distances are unchanged, atoms already inside are not moved; acceptable positions are accepted and unacceptable positions leave the structure as it was; set_cell keeps this; scale_positions scales all distances.", "quantifier": "all structures, positions, cells, histories", "why_tests_cant": "all positions; effects of rejected calls on the state", "anchors": ["box/atoms.py: Atoms._update, _reduce_atoms_into_cell, _check_cell_orthogonality, set_positions, set_calculator, set_cell, scale_positions"]}
{"id": "C166", "title": "Copies of atoms are independent", "statement": "Changing the positions of a copy of a structure leaves the original unchanged.", "quantifier": "all structures, all later histories of changes", "why_tests_cant": "all histories", "anchors": ["box/atoms.py: Atoms.copy"]}
{"id": "C167", "title": "The list of bonds", "statement": "construct_bonds finds exactly the pairs i<j nearer than 1.4 times the sum of covalent radii, each once with its length; write_vtk writes the bonds of the present positions.", "quantifier": "all structures and radii", "why_tests_cant": "all numbers of atoms and positions; state kept between calls", "anchors": ["box/atoms.py: Atoms.construct_bonds, write_vtk"]}
{"id": "C168", "title": "Moments of inertia", "statement": "The values returned are the moments of inertia about the axes returned, which are orthonormal; they are not negative, each is at most the sum of the other two, their sum is 2 sum m r^2; the moment about a parallel axis obeys Steiner, and with rcm a translation of all atoms changes nothing.", "quantifier": "all structures with non-negative masses", "why_tests_cant": "all structures", "anchors": ["box/atoms.py: Atoms.moments_of_inertia"]}
{"id": "C169", "title": "Paths of images between two structures", "statement": "interpolate places images at equal distances on the line between first and last; set_positions and get_positions are inverse; while locked the images stay and the deviations are those of the given positions; deviations of distances sum to zero and vanish exactly for equal distances; forces are minus the gradient of the sum of energies less multipliers times deviations, first and last image are fixed, and adding a constant to all multipliers changes nothing.", "quantifier": "all numbers of images and atoms, positions, multipliers, energy functions", "why_tests_cant": "all paths; derivative with respect to all coordinates; shared state between images", "anchors": ["box/barriers.py: MEP"]}
{"id": "C170", "title": "The LEPS potential", "statement": "The energy is defined everywhere (the square root has a non-negative argument), and forces are minus derivatives of the energy within 1e-6 of the position.", "quantifier": "all positions", "why_tests_cant": "all positions", "anchors": ["box/barriers.py: LEPS_Calculator"]}
{"id": "C171", "title": "The check of energy conservation", "statement": "check_energy_conservation is true exactly if the fluctuation of the total energy is below the tolerance times that of the potential energy; adding a constant to energies changes nothing; conserved energy passes.", "quantifier": "all numbers of steps, energies and tolerances", "why_tests_cant": "all trajectories", "anchors": ["box/md.py: check_energy_conservation"]}
{"id": "C172", "title": "Random displacements are bounded by the given radius", "statement": "displace_atoms_randomly moves each atom by at most dR.", "quantifier": "all structures, radii and random numbers", "why_tests_cant": "unbounded random numbers", "anchors": ["box/atoms.py: Atoms.displace_atoms_randomly"]}
{"id": "C173", "title": "Names of structures", "statement": "The default name lists each element once with the number of its atoms; set_name gives the name that get_name returns; the name follows the composition.", "quantifier": "all lists of symbols", "why_tests_cant": "all compositions; state kept between calls", "anchors": ["box/atoms.py: Atoms.get_name, set_name"]}
{"id": "C174", "title": "Leaving out inverse k-points changes nothing", "statement": "A calculation with kpts=(n1,n2,n3), where of k and -k only one point is kept with the sum of the weights, and a calculation with the list of all points of the mesh give the same energies, charges, forces, number of SCC iterations and exceptions; eigenvalues and occupations of k and -k are equal, density matrices complex conjugates. The same for any two lists of which one stands for the other, up to 2 pi.", "quantifier": "all structures, meshes, tables of integrals, mixers, starting charges, with and without SCC", "why_tests_cant": "holds for every structure and mesh, through all SCC iterations and for all eigensolvers", "anchors": ["hotbit/states.py: States.setup_k_sampling, solve, get_band_energies", "hotbit/interactions.py: Interactions.get_matrices", "hotbit/solver.py: Solver.get_states"]}
{"id": "C175", "title": "Band energies are periodic and symmetric under time reversal", "statement": "Energies from get_band_energies at k, at -k and at points differing by multiples of 2 pi in kappa are the same, in whatever lists the points occur; and there is no exception.", "quantifier": "all structures, lists of points, stored potentials", "why_tests_cant": "all points and structures", "anchors": ["hotbit/aseinterface.py: Hotbit.get_band_energies", "hotbit/states.py: States.get_band_energies", "hotbit/interactions.py: Interactions.get_matrices"]}
{"id": "C176", "title": "Band energies at the k-points of the calculation are its eigenvalues", "statement": "After a calculation get_band_energies at a point of the calculation gives the eigenvalues found there, as get_band_energies() without arguments does.", "quantifier": "all structures and calculations, with and without SCC", "why_tests_cant": "all calculations", "anchors": ["hotbit/aseinterface.py: Hotbit.get_band_energies", "hotbit/states.py: States.get_band_energies", "hotbit/electrostatics.py: Electrostatics.get_h1"]}
{"id": "C177", "title": "Asking for band energies does not change wave functions on the grid", "statement": "Calling get_band_energies leaves results of other calls unchanged.", "quantifier": "all structures and lists of points", "why_tests_cant": "hidden state shared by different calls", "anchors": ["hotbit/interactions.py: Interactions.get_matrices, get_phases", "hotbit/grids.py: Grids.get_grid_basis_orbital, get_grid_wf"]}
{"id": "C178", "title": "Units of k-points for band energies", "statement": "With rs=\"k\" in a Bravais lattice the phase of image n is exp(i k.T) for T = n1 a1 + n2 a2 + n3 a3, energies at k, -k and k plus a reciprocal lattice vector are equal, and results are those of rs=\"kappa\" at the products of k with the cell vectors; in other containers and for other rs there is an exception.", "quantifier": "all cells, points and structures", "why_tests_cant": "all cells and points", "anchors": ["hotbit/auxil.py: k_to_kappa_points", "hotbit/aseinterface.py: Hotbit.get_band_energies"]}
{"id": "C179", "title": "Equivalent copies multiply energies and repeat charges", "statement": "If the matrices of a calculation are those of m equivalent copies of a smaller one (its m Bloch states written in the orbitals of the copies), then energies are m times larger, charges of the copies are equal to those of the smaller calculation, forces are turned with the copies, eigenvalues at a point are those of the smaller calculation at its m points, occupations of equal levels are equal, and the number of SCC iterations is the same.", "quantifier": "all systems of matrices, numbers of copies, mixers, starting charges, with and without SCC", "why_tests_cant": "holds through all SCC iterations, for all eigensolvers and eigenvectors they choose", "anchors": ["hotbit/solver.py: Solver.get_states", "hotbit/states.py: States.solve, update, mulliken, get_band_structure_energy, get_band_structure_forces", "hotbit/occupations.py: Occupations", "box/misc.py: AndersonMixer, PulayMixer"]}
{"id": "C180", "title": "A structure and several copies of it are the same calculation", "statement": "When the atoms of a structure are m copies of those of another, placed by orthogonal maps, and the symmetry images of the one are those of the other, then matrices, gamma, repulsion and pair potentials from both structures satisfy C179: both are accepted or rejected together and results are multiples.", "quantifier": "all structures, copies, images, tables, with and without SCC, Gaussian and Slater gamma", "why_tests_cant": "all structures and tables", "anchors": ["hotbit/interactions.py: Interactions.get_matrices", "hotbit/coulomb/direct_coulomb.py: DirectCoulomb", "hotbit/electrostatics.py: Electrostatics", "hotbit/repulsion.py: Repulsion", "hotbit/pairpotential.py: PairPotential"]}
{"id": "C181", "title": "A wedge is the ring it stands for", "statement": "A wedge of angle 2 pi/M, not periodic along z, with all M k-points gives the results of the molecule made of the M turned copies, without symmetry: total energy and its parts divided by M, equal charges, turned forces, the eigenvalues of the molecule distributed over the k-points.", "quantifier": "all M, atoms of the wedge, tables, mixers, cutoffs of the Coulomb sum, with and without SCC", "why_tests_cant": "all rings of all sizes", "anchors": ["hotbit/containers/wedge.py: Wedge.transform, get_table", "hotbit/states.py: States.setup_k_sampling", "hotbit/interactions.py: Interactions.get_matrices"]}
{"id": "C182", "title": "A longer cell of a chain with fewer k-points is the same calculation", "statement": "A chain (Bravais in one direction, or Chiral with a twist) described by a cell m times longer, with one k-point for each m points (kappa + 2 pi j)/m of the short cell, gives m times the energies, equal charges and turned forces.", "quantifier": "all chains, twists, m, sets of points, tables, mixers, with and without SCC", "why_tests_cant": "all chains and cells", "anchors": ["hotbit/containers/bravais.py: Bravais.transform", "hotbit/containers/chiral.py: Chiral.transform", "hotbit/states.py: States.setup_k_sampling", "hotbit/coulomb/direct_coulomb.py: DirectCoulomb"]}
{"id": "C183", "title": "Atoms do not push themselves: total force and total torque", "statement": "The forces returned by a calculation do no work when the whole structure moves rigidly in a way that its symmetry operations follow. So the forces on the atoms of a molecule sum to zero and have no torque, and the forces of a periodic structure sum to zero.", "quantifier": "all structures, tables, charges (also before SCC is converged), eigensolvers, mixers, with and without SCC, Gaussian and Slater gamma, any pair potential", "why_tests_cant": "all structures and parameters; the four parts of the force come from different loops over images and must each cancel", "anchors": ["hotbit/states.py: States.get_band_structure_forces", "hotbit/electrostatics.py: Electrostatics.gamma_forces", "hotbit/repulsion.py: Repulsion.get_repulsive_forces", "hotbit/pairpotential.py: PairPotential.get_forces", "hotbit/interactions.py: Interactions.get_matrices", "hotbit/aseinterface.py: Hotbit.get_forces"]}
{"id": "C184", "title": "Wedges and screws have no total force or torque along their axis", "statement": "For a wedge and for a chain with a twist about z, the z components of the total force and of the total torque about the axis vanish.", "quantifier": "as C183; all angles, numbers of images, twists", "why_tests_cant": "all structures", "anchors": ["hotbit/states.py: States.get_band_structure_forces", "hotbit/electrostatics.py: Electrostatics.gamma_forces", "hotbit/repulsion.py: Repulsion.get_repulsive_forces", "hotbit/pairpotential.py: PairPotential.get_forces", "hotbit/interactions.py: Interactions.get_matrices", "hotbit/aseinterface.py: Hotbit.get_forces", "hotbit/containers/wedge.py: Wedge", "hotbit/containers/chiral.py: Chiral"]}
{"id": "C185", "title": "Without SCC the energy returned is that of the ground state", "statement": "Among all ways to put the electrons into orthonormal states with occupations between 0 and 2, those found by a calculation without self-consistent charges have the smallest band structure energy minus width times entropy (up to the levels that are too high for the exponential and get no electrons at all). So no other electrons have a band structure energy that is smaller by more than width * 2 ln 2 * number of states.", "quantifier": "all structures, tables, k-points with non-negative weights, widths, eigensolvers that meet their contract, root finders, and all other sets of orthonormal states and occupations", "why_tests_cant": "ranges over all competing states and occupations, a continuum for each structure", "anchors": ["hotbit/solver.py: Solver.get_states", "hotbit/occupations.py: Occupations.occupy, Occupations.fermi", "hotbit/states.py: States.solve, States.get_band_structure_energy", "hotbit/aseinterface.py: Hotbit.get_potential_energy"]}
{"id": "C186", "title": "With SCC the energy returned is the minimum of the free energy", "statement": "If moving charge between atoms costs electrostatic energy, then no orthonormal states and occupations with as many electrons have a smaller band structure energy plus electrostatic energy minus width times entropy than the result of a converged calculation, up to a term of the order of the convergence limit of the mixer.", "quantifier": "all structures without applied potential, tables, mixers, starting charges, all other electrons", "why_tests_cant": "ranges over all competing states and occupations and over all histories of the mixer", "anchors": ["hotbit/solver.py: Solver.get_states", "hotbit/occupations.py: Occupations.occupy, Occupations.fermi", "hotbit/states.py: States.solve, States.get_band_structure_energy", "hotbit/aseinterface.py: Hotbit.get_potential_energy", "hotbit/electrostatics.py: Electrostatics.construct_h1, Electrostatics.coulomb_energy", "hotbit/states.py: States.mulliken", "box/misc.py: AndersonMixer.__call__", "box/pulay.py: PulayMixer.__call__"]}
{"id": "C187", "title": "Self-consistent charges and energies do not depend on how they were found", "statement": "Two self-consistent calculations of the same structure with as many electrons, with different mixers, starting charges, eigensolvers and root finders, have free energies that differ by no more than a term of the order of the convergence limits, and their charges are close in the metric of the electrostatic energy. If the calculations are exactly self-consistent, the electrostatics is positive and no level is cut off, charges, free energies and everything else that is returned are equal. If moving charge costs at least kappa times the squares of the charges, charges differ by no more than a multiple of the convergence limits and free energies by a multiple of their squares.", "quantifier": "all structures, mixers, starting charges, eigensolvers", "why_tests_cant": "all pairs of histories of the mixers", "anchors": ["hotbit/solver.py: Solver.get_states", "hotbit/occupations.py: Occupations.occupy, Occupations.fermi", "hotbit/states.py: States.solve, States.get_band_structure_energy", "hotbit/aseinterface.py: Hotbit.get_potential_energy", "hotbit/electrostatics.py: Electrostatics.construct_h1, Electrostatics.coulomb_energy", "hotbit/states.py: States.mulliken"]}
{"id": "C188", "title": "A larger width never lowers energy or entropy and never raises the free energy", "statement": "With a larger electronic width (temperature) the electronic free energy is not larger, the entropy not smaller and the electronic energy not smaller, with and without SCC.", "quantifier": "all structures, tables, pairs of widths, eigensolvers", "why_tests_cant": "all structures and all pairs of widths", "anchors": ["hotbit/solver.py: Solver.get_states", "hotbit/occupations.py: Occupations.occupy, Occupations.fermi", "hotbit/states.py: States.solve, States.get_band_structure_energy", "hotbit/aseinterface.py: Hotbit.get_potential_energy", "hotbit/electrostatics.py: Electrostatics.construct_h1, Electrostatics.coulomb_energy", "hotbit/states.py: States.mulliken", "hotbit/aseinterface.py: Hotbit.__init__ (width)"]}
{"id": "C189", "title": "Charges on the atoms of a molecule never have negative electrostatic energy", "statement": "For a molecule with Gaussian charge distributions that are not narrower than that with self-energy U, the electrostatic energy computed for any charges on the atoms is not negative; if they are wider it grows at least with the squares of the charges. Therefore the energy of a converged SCC calculation is the minimum of C186 and does not depend on mixer and start as in C187, without further conditions.", "quantifier": "all molecules (any number of atoms, elements and positions), all charges, all tables", "why_tests_cant": "all positions of any number of atoms and all charges", "anchors": ["hotbit/electrostatics.py: get_Gaussian_gamma_correction, Electrostatics.coulomb_energy, Electrostatics.set_dq", "hotbit/coulomb/direct_coulomb.py: DirectCoulomb"]}
{"id": "C190", "title": "VTK files can be read back", "statement": "A program that reads VTK files finds in the file written for data on a rectilinear grid the coordinates of the grid and the value of the data at every point; in the file written for atoms it finds the positions of all atoms, and every scalar and vector property at its atom. If data do not fit to grid or atoms, an exception is raised.", "quantifier": "all grids of any size, all data, all atoms, all sets of scalar and vector properties", "why_tests_cant": "all sizes of grids and all data", "anchors": ["box/vtk.py: rectilinear_vtk, atoms_vtk", "box/mix.py: a2s"]}
{"id": "C191", "title": "Axis and angle describe the rotation they are computed from", "statement": "The axis and the angle computed from a rotation matrix give back that matrix, whatever random vector was drawn; the axis is a unit vector and the angle is between 0 and 2 pi; matrices with another determinant are rejected. When a container gives the direction and the angle of the rotation of a symmetry operation, they describe the rotation matrix it gives for the operation. With them the orbitals are rotated as the structure is, for every container and operation, d orbitals included.", "quantifier": "all rotation matrices, all random vectors off the axis, all containers, their parameters and symmetry operations", "why_tests_cant": "the random vector and the continuum of matrices; all operations of all containers", "anchors": ["box/mix.py: rotation_from_matrix, rotation_matrix, phival", "hotbit/containers/*.py: rotation", "hotbit/interactions.py: rotation_transformation"]}
{"id": "C192", "title": "Spherical harmonics are the standard ones", "statement": "For every angular momentum that is offered (l up to 6, all m) the function returned is the spherical harmonic with the Condon-Shortley phase, at every angle; other l and m raise an exception. The functions are orthonormal on the sphere, Y(l,-m) is (-1)^m times the conjugate of Y(l,m), and the sum of |Y(l,m)|^2 over m is (2l+1)/4pi in every direction. Spherical coordinates of a vector give the vector back.", "quantifier": "all l and m, all angles, all vectors of at least 1e-6 whose x and y are zero or above 1e-16", "why_tests_cant": "all angles; integrals over the sphere of all pairs of functions", "anchors": ["hotbit/analysis/wavefunctions.py: Ylm, to_spherical_coordinates", "box/mix.py: phival"]}
{"id": "C193", "title": "Weights of angular momenta are fractions", "statement": "In the analysis of angular momenta the weight of every l of a state is not negative, and at most 2l+1 times the norm of the state inside the sphere. If the weights of a state add up to more than 0.01 they are given as fractions between 0 and 1 with the sum 1, independent of the scale of the state. A state that is constant on the shells has the s-weight equal to its norm inside the sphere.", "quantifier": "all grids and shells, all states, all sets of l", "why_tests_cant": "all grids and states", "anchors": ["hotbit/analysis/wavefunctions.py: JelliumAnalysis.mark_grids, analyse_states, analyse_state"]}
{"id": "C194", "title": "Broadened spectra have the widths and areas asked for, and cumulative plots stack them", "statement": "Every value becomes a normal distribution whose full width at half maximum is the width given and whose area is its weight (1 without weights), so that the area of the whole spectrum is the sum of weights. In a cumulative plot the first band starts at zero, every band starts where the previous one ends, and its height is the spectrum of its weights; bands with weights that are not negative do not overlap. Every band given is drawn, as the region between its two curves, with its colour and label.", "quantifier": "all grids, values, widths above zero, weights (none, lists or arrays), numbers of bands", "why_tests_cant": "all spectra, and areas over the whole line", "anchors": ["box/broaden.py: gaussian_peak, broaden, make_cumulative_plot", "hotbit/analysis/wavefunctions.py: make_plot"]}
{"id": "C195", "title": "The path through the Brillouin zone consists of the points named", "statement": "The scaled coordinates given for the symmetry points of the face-centred cubic lattice are those of the textbook points in the reciprocal lattice. Each of them lies in the first Brillouin zone: X and L at centres of faces, K at the centre of an edge and W at a corner. The band path visits Gamma, X, W, K, Gamma, L, W; every section begins where the last one ended, and every k-point of the path lies in the first zone. Other crystals raise KeyError.", "quantifier": "all reciprocal-lattice vectors, all points of the path, all numbers of points, all names", "why_tests_cant": "the zone is defined by infinitely many reciprocal-lattice vectors and the path has a continuum of points", "anchors": ["box/brillouin_zone.py: symmetry_points, band_structures, get_bandpath"]}
{"id": "C196", "title": "Potentials of libxc functionals are the functional derivatives of their energies", "statement": "For every functional that can be chosen by name, in any case of letters, an all-electron calculation gets the exchange-correlation energy, and the potential is its functional derivative, also for functionals of the gradient. Unknown names and a missing grid raise ValueError.", "quantifier": "all names, all functionals (LDA, GGA, and both together), all densities, all variations of the density", "why_tests_cant": "all densities and variations; functionals are those of a library", "anchors": ["hotbit/parametrization/pylibxc_interface.py: libXCFunctional", "hotbit/parametrization/pylibxc_helper.py: translate_xc", "hotbit/parametrization/pylibxc_functionals.py: xc2libxc", "hotbit/parametrization/atom.py: KSAllElectron"]}
{"id": "C197", "title": "All peaks of a tabulated curve are found, and nothing else", "statement": "Every peak of a curve on an equally spaced grid that is higher than the given fraction of the highest value is returned, with a position within half a grid spacing of the highest point and a height between the value there and that plus an eighth of the second difference; parabolic peaks are returned exactly; nothing else is returned; at least two points never raise an error.", "quantifier": "all grids, all values, all fractions", "why_tests_cant": "all curves, of any length; where the peaks lie between the points is not on the grid", "anchors": ["box/mix.py: get_peak_positions, fit2"]}
{"id": "C198", "title": "Mean bond length and number of bonds of a molecule", "statement": "The mean bond length of a molecule is the average of all pair distances up to a cutoff that includes the shortest one, the first minimum of the broadened distribution of distances after its first maximum, so it is at least the shortest distance; it is the distance if all are equal, as for two atoms. The number of bonds counts each pair up to such a cutoff (the end of the grid if the distribution never falls) once, so it is at least one.", "quantifier": "all numbers of atoms, all distances", "why_tests_cant": "all molecules; the cutoff depends on all pair distances", "anchors": ["box/atoms.py: mean_bond_length, number_of_bonds, pair_distribution_function, pair_distribution_list"]}
{"id": "C199", "title": "Paths between given points, as for band structures", "statement": "The path made between given points contains each of them, at the distance along the path that is returned as its label; distances are lengths of the way along the path; consecutive points are at most 1.5 average spacings apart; the number of points differs from the one asked for by at most half the number of parts.", "quantifier": "all lists of points, all numbers of points of at least two", "why_tests_cant": "all points; which points are on the path depends on the lengths of all parts", "anchors": ["box/interpolation.py: interpolate_path", "examples/band_structure.py"]}
{"id": "C200", "title": "Random directions are uniform over the sphere", "statement": "Random directions are unit vectors with angles in their ranges, the same for both forms; the share of random numbers that give a direction within an angle of the z axis is the share of the area of the sphere, all azimuths are equally likely, and each direction (but that of the negative z axis) can be drawn. Spherical coordinates of radius r give points on the sphere of radius r.", "quantifier": "all random numbers, all angles, all unit vectors", "why_tests_cant": "all real numbers; a sample cannot show that a distribution is uniform", "anchors": ["box/mix.py: random_direction, spherical_to_cartesian"]}
{"id": "C201", "title": "Removing the indentation of a text keeps its contents", "statement": "clean_indentation removes the same number of spaces from all lines, so that the lowest indentation is zero (for indentations up to 100), and empty lines at the start; no visible character is lost.", "quantifier": "all texts", "why_tests_cant": "all texts, of any number of lines with any characters", "anchors": ["box/mix.py: clean_indentation"]}
{"id": "C202", "title": "Lists of vectors and arrays of their components", "statement": "Vectors can be changed from a list to one array of components and back; whatever is returned has the same components in the same order, and vectors already in the form asked for are returned as they are. max_norm is the length of the longest vector of a list, zero without vectors.", "quantifier": "all lists of vectors of any length, all arrays", "why_tests_cant": "all lists and arrays", "anchors": ["box/mix.py: select_vector_mode, max_norm, norm"]}
{"id": "C203", "title": "Comments and other lines of a file", "statement": "read_file returns all lines, or only comments, or only the others, in the order of the file and without white characters at the start of lines; each line that is not blank is either a comment or not; any other mode gives no lines.", "quantifier": "all files, all comment characters, all modes", "why_tests_cant": "all files, of any number of lines", "anchors": ["box/mix.py: read_file"]}
{"id": "C204", "title": "Text output goes to the file chosen last", "statement": "After any history of set_text, print, flush and close_output, a file has its former contents followed by a first part of all text printed while it was the chosen file, and by all of that text after flush, close_output or the choice of another file; standard output has the text printed while it was chosen and is never closed; printing raises only after a file has been closed.", "quantifier": "all histories of calls, all initial contents of files, all times at which Python writes its buffers", "why_tests_cant": "all histories, and all times at which buffers are written", "anchors": ["hotbit/output.py: Output", "hotbit/aseinterface.py: Hotbit.set_text"]}
