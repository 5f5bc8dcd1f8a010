{
 "C01": {
  "note": "For every table and step; C01_defined shows the change is defined for legal steps."
 },
 "C02": {
  "note": "For every layout whose sublattice sites partition the supercell."
 },
 "C03": {
  "note": ""
 },
 "C04": {
  "status": "partial",
  "note": "Site/active/encoding parts are proved in full. Codes keep their species only if a vacancy in the group weighs more than 1% of it; refuted otherwise (C04_light_vacancy_refuted)."
 },
 "C31": {
  "note": ""
 },
 "C58": {
  "status": "partial",
  "note": "Equality zips and so ignores extra species: exact for full compositions or ones leaving more than 1% vacancy, refuted in between."
 },
 "C61": {
  "status": "partial",
  "note": "Holds when the unique site spaces have different species lists; refuted when two site spaces have the same species with different measures."
 },
 "C62": {
  "status": "partial",
  "note": "Holds without explicit vacancies and with totals below 0.99 or equal to 1; refuted otherwise."
 },
 "C05": {
  "note": "Exact proposal probabilities, legality, totality and symmetry for every usher built by the constructor."
 },
 "C06": {
  "note": "Includes conservation of every species count."
 },
 "C07": {
  "note": "For any inner proposer with the stated step legality; swap instance given."
 },
 "C08": {
  "note": "Weights normalise for every accepted sequence of additions."
 },
 "C64": {
  "status": "partial",
  "note": "Refuted: the multi-step constructor raises for every accepted list of step probabilities (it reads an attribute that it does not set); only the uniform default works. The part about sublattice probabilities is proved."
 },
 "C09": "Tables of pairwise different, non-opposite rows that conserve sites; swaps are covered by C06. Also: constraints kept, never raises.",
 "C10": "Over the reals (standard-library axioms of Reals). Transition probabilities sum over all site selections. Numerical tolerances are exact comparisons.",
 "C44": "Per-species list of maxima (the only use in the code).",
 "C11": {
  "note": "Over the reals. Acceptance interval, downhill moves, detailed balance for any proposer with exact a-priori factor, and instances for flips, swaps and table flips."
 },
 "C12": {
  "note": "Any proposer; the uniform draw is an argument (log of a zero draw raises)."
 },
 "C13": {
  "note": "Any number of walkers, steps and thinning; by induction over the run. C13_run_defined shows runs do not raise."
 },
 "C15": {
  "note": "Assignment histories, multi-cell assignment, annealing without streaming. The Boltzmann-constant setter of a multi-cell kernel does not reach its cells (modelled, noted in DESIGN.md)."
 },
 "C22": {
  "note": "Any history of in-memory runs."
 },
 "C23": {
  "status": "partial",
  "note": "Holds when the chunk size divides the number of samples and the container is empty; refuted otherwise: leftover samples are lost, and streaming into a non-empty container raises."
 },
 "C24": {
  "status": "partial",
  "note": "Selection, flattening, minimum value and efficiency are proved. The minimum occupancy is proved for the flat query with more than one entry; refuted for one entry (a site code is returned) and for the per-walker query (every walker is read at the first walker's index)."
 },
 "C25": {
  "status": "partial",
  "note": "Proved for containers without unused allocated rows (as after any run); refuted with unused rows."
 },
 "C65": {
  "note": "All valid occupancies."
 },
 "C19": {
  "note": "Fugacity, square charge and square hyperplane biases: value in terms of the species carried by each site, and change = difference for every allowed step (sites may repeat). Fugacity needs positive fractions on a layout; logarithms are over the reals (stdlib axioms). numpy infinities of zero fractions not modelled."
 },
 "C20": {
  "note": "Any history of assignments (valid or rejected), deletions, splits, freezing; the state after an exception inside a split is not modelled. Direct user assignment of natural_parameters (public setter) is not among the operations."
 },
 "C21": {
  "status": "partial",
  "note": "False of the code for steps that repeat a site once chemical potentials are set (C21_repeated_site_refuted); proved for steps with distinct sites and, without potentials, for all steps, given a processor with exact changes."
 },
 "C66": {
  "status": "partial",
  "note": "False of the code: the table of potentials is not rebuilt when a sublattice becomes active or inactive (C66_unfreeze_refuted)."
 },
 "C16": {
  "note": "Runs of any length started inside the window, any proposal the MCUsher can make, any random numbers in (0,1); exact arithmetic. Starting outside the window (where the code indexes the entropy table with an out-of-window bin) is not covered."
 },
 "C17": {
  "note": "As C16, for modification schedules that keep the factor positive."
 },
 "C18": {
  "status": "partial",
  "note": "Proved for update_period = 1; false of the code for larger periods (C18_update_period_refuted): visits between updates overwrite the mean."
 },
 "C67": {
  "note": "Exact rational entropies, real exponentials."
 },
 "C14": {
  "status": "partial",
  "note": "Proved for the current cell along every history (recorded and cached features, enthalpy, reported changes, when the cell changes) and for cells that still hold the array they were given. Refuted in general: after an in-cell step the cell's trace aliases the walker row, so an accepted hop overwrites the occupancy stored for the cell that was left while its cached features stay."
 },
 "C68": {
  "status": "partial",
  "note": "Proved while no hop is accepted; refuted for accepted hops, which reuse the bias change of an earlier step of the target cell."
 },
 "C69": {
  "status": "partial",
  "note": "Proved for the default cell probabilities and for hop-period probabilities; refuted for given cell probabilities, with which the constructor always raises (kernel_p versus _kernel_p)."
 },
 "C26": {
  "note": "Full and local evaluation modelled from evaluator.pyx and processor/expansion.py; the change theorem covers every flip list over sites in at least one cluster (see C70 for the others); C26_value gives each entry as a mean of tensor entries."
 },
 "C27": {
  "note": "Same scope as C26 for the decomposition processor."
 },
 "C32": {
  "note": "Each orbit's work is a list of writes; any interleaving gives the sequential result because the slots are distinct. Data races inside a single write and the C memory model are not modelled."
 },
 "C34": {
  "note": "Stride vector, flat index loop and C-order tensors."
 },
 "C70": {
  "status": "partial",
  "note": "False of the code: the per-site dictionary has no key for a site in no cluster, so any flip list starting with such a site raises KeyError although the full vectors do not change; C70_no_cluster_refuted proves both facts for all processors."
 },
 "C33": {
  "note": "Reachable subspaces: the constructor followed by any list of removals of orbits or functions, basis changes and table requests. The dictionary of orbits is modelled in ascending order of sizes."
 },
 "C35": {
  "note": "The cluster permutations are assumed to form a group and to exchange only sites with the same functions; C89 proves both for the orbits of a crystal."
 },
 "C71": {
  "note": "The geometric search for cluster sites is a function parameter; its independence of the row order is a hypothesis."
 },
 "C72": {
  "status": "partial",
  "note": "Proved for ClusterSubspace with orbits (or whose tables were not asked for) and for Potts subspaces that keep all decorations. False for a subspace left without orbits that was asked for a table since: loading raises (C72_empty_refuted). False for Potts subspaces created without the last decorations: from_dict removes one more function of every orbit (or raises) and leaves the evaluator with the old functions; C72_potts_refuted proves this for all reachable subspaces with an orbit."
 },
 "C36": {
  "status": "partial",
  "note": "Proved: correlations of an indicator orbit are non-negative fractions and the sum weighted with the numbers of symmetric variants is one. The plain sum of the statement is refuted for a symmetric pair: tensors are divided by the number of variants. PottsSubspace(remove_last_cluster) and geometry outside."
 },
 "C29": {
  "status": "proved",
  "note": "Includes construction of both processors from coefficients, well-formedness of the processors, and changes."
 },
 "C39": {
  "status": "proved",
  "note": "Modelled exactly over Z (IntMath.v). C39_forms: the enumerated Hermite forms are exactly the upper triangular 3x3 matrices with given determinant and reduced off-diagonal entries, each once. C39_sublattices: every integer matrix of that determinant spans the lattice of exactly one of them. C39_supercells: the symmetry reduction keeps one representative per class."
 },
 "C40": {
  "status": "proved",
  "note": "Extended Euclid over Z with the sign handling of the code; termination of the recursion and the Bezout identity for all integers."
 },
 "C41": {
  "status": "partial",
  "note": "C41_decomposition_partial: M A T = S, M and T invertible over Z, S diagonal, for every matrix and every size. C41_smith_partial: the divisibility chain for min(n,d) <= 2. C41_smith_refuted: the final pass does not give the divisibility chain in general: diag(2,4,3) gives (2,1,12)."
 },
 "C42": {
  "status": "partial",
  "note": "Soundness of every returned solution and the raised cases are proved in general. Completeness of the returned lattice is proved for independent rows (C42_lattice_partial) and for exactly one zero on the diagonal (C42_one_zero_partial). Refuted in general: only the vectors after the last zero diagonal index are returned, inconsistent zero rows are not checked, and the default right-hand side has the wrong length for non-square matrices."
 },
 "C43": {
  "status": "partial",
  "note": "Exact rationals; the linear program is an oracle whose bounds are right up to the tolerance. Complete and sound for one variable when the tolerance times every component is below 1 (C43_one_dim_partial), for several variables with step 1 (C43_natural_partial), sound for every step (C43_natural_step_partial). C43_tolerance_refuted: components beyond the inverse tolerance make the rounding admit an infeasible point. Raising means infinitely many solutions (C43_unbounded). Missing: floats, and completeness of the linear program itself."
 },
 "C28": {
  "status": "proved",
  "note": "The matrix entries are given (pymatgen); exact arithmetic. C28_value: the feature is the sum over all ordered pairs of ions, with indices counted from the species lists. C28_change: for every list of flips, also repeated sites, the change is the difference, for symmetric matrices. C28_symmetry_needed: without symmetry it is not."
 },
 "C30": {
  "status": "partial",
  "note": "C30_difference: for any list of expansion, decomposition and Ewald processors the property change is the difference of the properties. C30_value_partial, C30_change_partial: property = sum over parts = coefficients dot features, when all parts after the first have features of one shape. C30_shapes_refuted: otherwise compute_feature_vector raises (np.append of a ragged list). C30_empty_refuted: without parts features raise and the property is 0."
 },
 "C37": {
  "status": "proved",
  "note": "Groups are ascending, disjoint, ordered by first member, have at least two members, and contain two different orbits iff the orbits have the same clusters as unordered site collections."
 },
 "C38": {
  "status": "proved",
  "note": "Inverse: membership is transposed, rows strictly descending, inverting twice gives the same relation. Completion: for acyclic tables with entries in range the loop ends within as many rounds as there are orbits and gives the transitive closure. C38_cyclic_diverges: an orbit reaching a cycle makes the loop run forever."
 },
 "C56": {
  "status": "partial",
  "note": "Proved when the constant and every external coefficient stay: coefficients and functions stay aligned and predictions are the sums over the kept terms of original coefficients and original features; with with_multiplicity external terms always stay. Refuted otherwise: when the constant or an external coefficient is below the threshold, pruning raises or leaves an expansion whose predictions raise (C56_fixed_dropped_refuted, C56_constant_raises, C56_constant_broadcast)."
 },
 "C55": {
  "status": "proved",
  "note": "For correlation and interaction distances: features are absolute differences to the target with the largest diameter in front up to which all features of orbits are within the tolerance (unique; 0 if none or if its weight is 0), the change for a step is the difference of the features, for every processor built from a consistent subspace."
 },
 "C73": {
  "status": "partial",
  "note": "Proved: all features but the first survive, and with unit weights and the default tolerance the processor is the same. Refuted: weights and tolerance are not stored (C73_weights_refuted, C73_tolerance_refuted)."
 },
 "C57": {
  "note": "Rational coordinates in any dimension; the tolerance is at most one half. C57_separation_needed shows that closer sites break symmetry. Site spaces take no part in the comparison, as in the code."
 },
 "C47": {
  "status": "partial",
  "note": "Proved with external terms excluded and for the default decimals. False in the code otherwise: keeping external terms always raises (C47_external_refuted); get_matching_corr_duplicate_indices passes its decimals argument as cutoffs (C47_decimals_refuted)."
 },
 "C48": {
  "status": "partial",
  "note": "Proved for histories where new entries get the names of the present ones (alignment) and for histories without removals (index sets). False otherwise: an entry added without properties makes the vector unreadable, remove_properties stops at the first entry lacking the key, remove_entry leaves stale index sets."
 },
 "C49": {
  "status": "partial",
  "note": "Selection proved exact; the Ewald energies read from stored features are only right when the Ewald term is the last external term (C49_last_term_refuted)."
 },
 "C74": {
  "note": "The first column is left out by the code because it is the constant one; numpy comparison modelled as exact equality."
 },
 "C75": {
  "note": "Over the reals; uses the axioms of Coq's Reals."
 },
 "C50": {
  "status": "partial",
  "note": "get_variables_from_sublattices, get_occupancy_from_variables, get_variable_values_from_occupancy and the normalization constraints are modelled. Encode and decode are inverse bijections between allowed occupancies and feasible 0/1 vectors for every layout in which codes stand for the species of the site spaces; default, restricted and split sublattices have such layouts, split ones when no group drops a light vacancy (C04). Refuted without that: a dropped vacancy is decoded as another species."
 },
 "C51": {
  "status": "proved",
  "note": "get_expression_and_auxiliary_from_terms with exact numbers, for all term lists, cutoffs and assignments: value, uniqueness of the auxiliary variables, which products get one, when the problem is refused, and a bound on what the cutoff drops. The order of the point terms in the sum is not modelled."
 },
 "C52": {
  "status": "partial",
  "note": "Terms of expansion, decomposition, electrostatic and chemical-potential objectives have the value of the processors for every feasible assignment, so optimal solutions are exactly the ground states (canonical and semigrand). Refuted without a wide table: potentials are read for every species of the original site space, so a split that drops the last species makes building the terms raise."
 },
 "C76": {
  "note": "Rows must not hold nonzero entries that count as zero (1e-8), a stated hypothesis; the sublattice-size rows and a vanishing charge row that the code skips are shown to hold always."
 },
 "C77": {
  "status": "partial",
  "note": "Proved for an object without a cached occupancy and values not below the solution. Refuted: astype(int) cuts values slightly below one (any tolerance), and a second solve without reset reports the occupancy of the first."
 },
 "C46": {
  "status": "partial",
  "note": "Proved for strings in the documented form whose numbers are read exactly (integers always are): the returned row and right side demand just the written inequality for every composition, an unknown species is the only reason for refusal, and the stored lists of a fresh object demand just the conjunction of the stated constraints. Refuted in general: a number before the last term of a side is dropped silently, a number within np.isclose of an integer is rounded (50000.5 becomes 50000), a tuple with an unknown label is dropped, and a second assignment is ignored."
 },
 "C78": {
  "status": "proved",
  "note": "Includes CPython's continued fraction loop (limit_denominator) with a proof that it terminates and returns a closest fraction. Floats are their exact rational values; the division in the tolerance check is exact."
 },
 "C45": {
  "status": "partial",
  "note": "Proved for every space: feasible compositions are accepted unchanged (with rounding too when whole), whole infeasible ones are rejected in every format while (largest denominator of a right side) x (supercell size) stays below 1e6, and everything accepted meets nonnegativity, charge balance and sublattice sizes within the tolerance. Counts to coordinates and back is the identity both ways, for fractional compositions too, and whole compositions have whole coordinates, under: constraint denominators at most 1000, a pseudo-inverse P with V P V = V (numpy's contract), a solvable base size, and a system whose integer solutions are all found (shown for independent rows, or one dependent row). Counts to compositions and back is the identity, each fraction is count/size, and compositions to counts and back keep every fraction (fractions below 1e-8 are dropped by pymatgen, so they are excluded). Species counts are the totals per species. Refuted: inequality constraints are never checked by the translation; in cells above 1e6 the tolerance accepts infeasible whole counts; with two redundant constraints some feasible compositions have no coordinates; a space feasible only in doubled cells raises. Not modelled: optimize_basis, floats."
 },
 "C53": {
  "status": "partial",
  "note": "Proved for runs that clear earlier results: such a run never raises, keeps the last k strict improvements (at most k, strictly improving, the last one best of all seen) and stores exactly those; get_best_sqs ranks them, loses none but matches and those beyond the limit. With clear_previous=False the claim is false: the best score restarts at infinity (C53_restart_refuted), saving raises when old and new do not fit in the new rows (C53_rows_refuted), equal structures survive removal of duplicates (C53_duplicates_refuted)."
 },
 "C54": {
  "status": "proved",
  "note": "Proved in full: the result is the first candidate whose remaining samples are judged converged, else 0; the verdict is characterised with real means and standard deviations. Two facts against the documentation: 0 is also returned when nothing converges (C54_zero_refuted), and the result need not be the smallest number that leaves converged samples (C54_smallest_refuted). Floating point of np.arange and np.std is not modelled."
 },
 "C59": {
  "status": "partial",
  "note": "Setting: every object of the container and no other gets the accepted value, or nothing changes; thread numbers lie between 1 and what the machine offers. Reading returns only the value of the first object, so objects set one by one to different values are not told apart (C59_read_refuted). Processors without a number use the default, not the number of the subspace as documented (C59_subspace_refuted)."
 },
 "C60": {
  "status": "partial",
  "note": "Dashes and camel caps in any mixture give the name; normalising is idempotent; every spelling makes the class of that name. Spaces and underscores do not separate words, and all-capitals or unseparated small letters are not understood (C60_separators_refuted). ASCII only."
 },
 "C79": {
  "status": "proved",
  "note": "Values are exact reals. The model covers the indicator, sinusoid, polynomial, Chebyshev and Legendre bases; numpy's polynomial evaluation is modelled by the three-term recurrences."
 },
 "C80": {
  "status": "partial",
  "note": "Proved for site spaces whose measures sum to one, with the QR factorisation as an argument of which only A = QR, orthonormal columns of Q and triangular R are used. False for spaces with totals between 0.99 and 1 (C80_measure_refuted)."
 },
 "C81": {
  "status": "partial",
  "note": "Proved for three or more species and any sequence of calls whose indices name different functions, and for two species after an odd number of calls. False for two species after an even number of calls (rotation_array becomes -I) and for an index and its negative twin (the function is scaled by 2cos(angle)-1)."
 },
 "C82": {
  "status": "proved",
  "note": "Exact reals; the tolerances are those of np.allclose."
 },
 "C83": {
  "status": "partial",
  "note": "The orthonormalisation array None of a fresh basis becomes np.array(None). All else survives, and so does everything of a basis that was orthonormalised."
 },
 "C84": {
  "status": "partial",
  "note": "Proved when measures sum to one. False otherwise: site spaces are compared up to the shorter one, so a basis over another site space may be rotated too (C84_prefix_refuted)."
 },
 "C86": {
  "status": "partial",
  "note": "Refuted: the first occupancy ignores the given seed, so the same seed gives different results; with one species on every site the generator raises although the only occupancy is neutral. The rest is proved."
 },
 "C87": {
  "status": "partial",
  "note": "Proved for compositions that list every species of their sublattice (a vacancy may be implied), one composition per sublattice, tuples normalised. Refuted: a species that is not listed (end members) raises; an incomplete composition is accepted by a sublattice without vacancies and the rest gets the first species; one composition for several sublattices leaves the others filled with their first species; a tuple that needs normalising raises."
 },
 "C88": {
  "status": "partial",
  "note": "Proved: soundness for any neighbors (C88_sound), completeness for points and pairs (C88_pairs), completeness for all sizes and success when no point of the cell is further from its centre than all sites (for example orthogonal axes with a site at the origin). Refuted: in a skewed cell a triple within the cutoff is in no orbit, because the neighbors are searched around the centre of the cell with a radius that only reaches its sites; KeyError when a size has no cluster within its cutoff and a larger size is listed. Simplified: exact arithmetic, distances compared through squares, neighbors from pymatgen as a specified list."
 },
 "C90": {
  "status": "partial",
  "note": "Proved: None excludes, other values are ignored, dictionaries without key 1 are unchanged. Refuted: the key is popped from the dictionary of the caller, so a second call with {1: None} generates points; the documented {1: 0} does not exclude points."
 },
 "C89": {
  "note": "The operations are taken modulo lattice translations, listed once, with inverses and compositions among them, and mapping sites to sites isometrically (what a space group of the structure gives); exact arithmetic."
 },
 "C91": {
  "note": "The inverse of the matrix is an input with the inverse property, and the tolerance is assumed to tell the sites of the supercell apart (it is relative to the supercell). lattice_points_in_supercell, make_supercell and coord_list_mapping_pbc of pymatgen are modelled in exact arithmetic. The cache of get_orbit_indices is not modelled."
 },
 "C92": {
  "note": "The orbits are those that the model generates from clusters, with the site indices of C91; the multiplication by the size of the supercell in processors is C26. Operations that do not keep the supercell are outside the statement: they map the occupancy to another supercell."
 },
 "C93": {
  "status": "partial",
  "note": "Size, independence, membership in the lattice and improvement are proved for any number of vectors; that the lattice is kept is proved for at most two vectors of a pure lattice, and for spaces of at most two dimensions. False of the code for three vectors or more (C93_half_refuted): only linear independence is tested, so the result may generate half of the flips. numpy's rank is an argument, assumed to recognise independent tables."
 },
 "C94": {
  "status": "partial",
  "note": "That the basis stays and that added flips connect grid points holds always; every composition gets a neighbour when there are at least as many compositions as neighbours asked for; full ergodicity for one dimension. False of the code in general: a neighbour for every composition does not connect the graph (C94_disconnected_refuted), and with fewer than three compositions the query for three neighbours raises (C94_single_refuted). The KD-tree is an argument, assumed to return the nearest points."
 },
 "C95": {
  "status": "partial",
  "note": "Independence of earlier calls, soundness for every step, and exactness (each composition once) for steps that divide the size. For other steps only soundness is proved. Inequalities with the code's tolerance; the equations need regular spaces (see C45) and right-hand sides with denominators up to 1000. False of the code: a step that is a multiple of a factor of the size may raise although the size has compositions (C95_half_refuted)."
 },
 "C96": {
  "status": "partial",
  "note": "Sub-orbit test and its independence of representatives in full; get_sub_orbits and orbit_hierarchy are exact when min_size is 1 or the level stops above size zero, and there are orbits of every size searched. False of the code otherwise: with no level, a negative one, or one not smaller than the size, min_size is ignored (C96_min_size_refuted); when all orbits of a size between were removed KeyError is raised (C96_missing_refuted)."
 },
 "C97": {
  "note": "Relative to the sub-orbits that get_sub_orbits returns (C96). Coordinates are exact; the default tolerance of is_coord_subset is any positive number not above the site tolerance. Site spaces are assumed invariant under the operations."
 },
 "C98": {
  "status": "proved",
  "note": "any two supercells and any symmetry operation of the crystal (C92 is the case of one supercell that the operation keeps); the property of the decomposition processor follows with C29"
 },
 "C99": {
  "note": "The neighbor search and the symmetry operations are arguments (as in C88); all sites are active; structure matching is not modelled."
 },
 "C100": {
  "status": "partial",
  "note": "Holds for at least two selected values (and for any number walker by walker). With one selected value the squeezed array has lost its first axis: the mean of a vector is the mean over its components and the mean of a number raises (C100_single_refuted). Energies follow any later setting or change of the chemical potentials, but once they are removed from the ensemble the energies of earlier samples are reported as their enthalpies (C100_removed_refuted)."
 },
 "C101": {
  "status": "partial",
  "note": "Holds for every non-empty selection, except one selected occupancy and a sublattice with a single species, which raises (C101_single_refuted). Means over a sublattice need two selected occupancies, as in C100."
 },
 "C102": {
  "status": "partial",
  "note": "Right for one selected sample. With more, the mask of functions is applied to the samples: it raises unless there are as many samples as functions, and then sums energies of samples (C102_samples_refuted)."
 },
 "C103": {
  "status": "proved",
  "note": "Weights for all consistent subspaces; variance of interaction tensors, independence of the orthonormal basis, and mean and variance of the property of a supercell for rational measures and site functions. Supercells in which two clusters have the same sites (aliased clusters) are outside the last theorem."
 },
 "C104": {
  "status": "partial",
  "note": "Proved for orthonormal bases over uniform measures with all functions of each orbit kept; bases that are made and orthonormalised meet the hypotheses. False for a binary basis that was rotated an even number of times (the matrix negates, the functions do not change) and for subspaces from which functions were removed before the rotation."
 },
 "C105": {
  "status": "partial",
  "note": "Independence needs a nonzero first row and a small tolerance. Exactly the rank is reached when the first rows are independent and span the others. Refuted otherwise: a duplicate structure makes a later independent row disappear, and a zero first row is selected."
 },
 "C106": {
  "status": "partial",
  "note": "The result is right whenever the loop ends. Refuted: asking for all samples never returns, and the largest probability is taken over reordered components, since np.unique works on columns."
 },
 "C107": {
  "status": "partial",
  "note": "Proved for two or more samples and features. Refuted: one sample or one feature always raises, as do more orthogonal samples than features. Zero rows (nan) are left out."
 },
 "C108": {
  "status": "proved",
  "note": "Pymatgen's matcher is an argument (the site mapping)."
 },
 "C109": {
  "status": "proved",
  "note": "Columns of zeros (nan) are left out."
 },
 "C110": {
  "status": "partial",
  "note": "Proved when all vacancies are Vacancy(). Refuted otherwise: another vacancy is removed and then not found."
 },
 "C111": {
  "status": "partial",
  "note": "Proved without relative tolerance. Refuted with the default one, which refers to the later column."
 },
 "C112": {
  "status": "proved",
  "note": "exact rationals instead of floats; flips at sites that belong to a cluster; symmetric Ewald matrix"
 },
 "C113": {
  "status": "proved",
  "note": "dictionary of the site space taken as exact"
 },
 "C114": {
  "status": "partial",
  "note": "false after a whole sublattice was frozen or unfrozen: see the refuted theorems"
 },
 "C117": {
  "status": "partial",
  "note": "False of the code: the comparison zips the two lists of orbits, so a subspace can equal one with more orbits and as many functions (C117_equal_refuted), and equality is not transitive (C117_transitive_refuted). Proved: subspaces with equal numbers of orbits that compare equal have the same orbits in the same order, numbers of functions and external terms (C117_equal_partial)."
 },
 "C119": {
  "status": "partial",
  "note": "False of the code: with cutoffs {} or {1: x} generation returns before the last decorations are removed (C119_points_refuted). Proved when cutoffs of larger clusters are given (C119_removed_partial)."
 },
 "C121": {
  "status": "partial",
  "note": "False of the code: from_processors checks the length of a target and then ignores it, as it does weights and tolerances (C121_processors_refuted). Proved for generators that make their processors (C121_target_partial)."
 },
 "C122": {
  "status": "partial",
  "note": "False of the code: processors are looked up by the sorted rows of the matrix, so other lattice vectors of the same supercell raise a KeyError (C122_lattice_refuted). Proved for rows in another order (C122_rows_partial)."
 },
 "C124": {
  "status": "partial",
  "note": "C124_features_partial holds for histories in which an entry belongs to one wrangler, appended entries were processed with the same subspace and changes of subspace go through and keep the primitive cell. Refuted without these: an entry given to two wranglers (C124_shared_refuted), entries appended from another subspace (C124_appended_refuted), a change that raises (C124_changed_refuted). C124_loaded has no condition."
 },
 "C125": {
  "status": "partial",
  "note": "C125_set_partial holds when every entry has a dictionary of its own and no wrangler holds an entry twice. Refuted otherwise: the dictionary given with an entry is kept, so one dictionary given with two entries is shared (C125_dictionary_refuted)."
 },
 "C127": {
  "status": "partial",
  "note": "False of the code: steps of composites and multi-steps given by name, and the swapper of table flips, are built without the generator of the kernel (mcusher.py:263-267, 350-354, 540), so they take a seed from the operating system. Proved for table flips that always have a flip for the occupancies of the run; the plain proposals are C126."
 },
 "C128": {
  "status": "partial",
  "note": "False of the code: the constructor of Composite appends the specification of every step once more after add_mcusher did (mcusher.py:355-356). Proved for steps added later."
 },
 "C129": {
  "status": "partial",
  "note": "Proved for multi-steps of one sub-step; unmixed multi-steps are in C63. Refuted with two sub-steps over a composite of flips and swaps: 7/36 one way and 1/9 back."
 },
 "C131": {
  "status": "partial",
  "note": "Proved when the given coefficients are the multiplicities of orbits. False otherwise: the dictionary has them, but from_dict does not pass them on, so that the loaded processor uses the multiplicities (C131_given_refuted, for all such processors)."
 },
 "C133": {
  "status": "partial",
  "note": "Proved without regression data, when the coefficients still fit the subspace (see C56). False with regression data as soon as one coefficient is pruned: the constructor compares with the original feature matrix and raises (C133_data_refuted, for all such expansions)."
 },
 "C134": {
  "status": "partial",
  "note": "Proved that values stay the same. False for saving: the processor is saved with the pruned subspace and its original coefficients, which the constructor refuses (C134_saved_refuted, whenever functions were removed)."
 },
 "C135": {
  "status": "partial",
  "note": "Proved for expansion and decomposition processors, and for Ewald processors when the subspace has an external term. False otherwise: a default term is added to the subspace of the caller, after which an expansion on it can not be copied and predictions raise (C135_term_refuted)."
 },
 "C137": {
  "status": "partial",
  "note": "C137_found_partial: a wrong change of one of the first sites is found. False of the code in general: site indices are drawn below the number of primitive cells, so other sites are never flipped (C137_unseen, C137_sites_refuted), and a drawn site with one species raises (C137_raises_refuted)."
 },
 "C138": {
  "status": "partial",
  "note": "Copies of clusters made from sites with fewer than 99 species (C138_copy_partial), loaded clusters without vacancies (C138_load_partial), site spaces of loaded clusters with default vacancies (C138_vacancies_partial). False of the code in general: vacancies are dropped from the species by loading (C138_dropped_refuted), charged ones come back as default ones (C138_charged_refuted), amounts given with site spaces are not copied (C138_measure_refuted)."
 },
 "C140": {
  "status": "partial",
  "note": "C140_written_partial: if the container has all traced values of the file and saving returns, all that is read was written. False of the code in general: only the shape of occupancies is compared, so traced values of the file that the container does not have are read although they were not written (C140_values_refuted), and samples of another ensemble are added (C140_ensembles_refuted)."
 },
 "C142": {
  "status": "partial",
  "note": "Proved: after any assignment, pruning by coefficients makes everything that is read belong to the coefficients again (C142_prune_partial), and until then every read gives what it gave before (C142_stale). Refuted: effective interactions, tensors, weights and interactions of structures stay those of the old coefficients (C142_reads_refuted), and pruning by effective interactions then removes functions by the old ones (C142_prune_refuted)."
 },
 "C145": {
  "status": "partial",
  "note": "Proved when all sites with the same species write their vacancies in the same way. Refuted otherwise: equal site spaces with different hashes are both kept, and every site is in two sublattices."
 },
 "C149": {
  "status": "partial",
  "note": "Proved for odd thinning intervals. Refuted for even ones when all active sublattices have two species: every step changes the parity of the number of sites that differ from the start and all steps are accepted, so occupancies with odd differences are never recorded, although the kernel's documentation says that all states have the same probability."
 }
}