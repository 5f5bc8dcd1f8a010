{
 "claims": [
  {
   "property": "C01",
   "status": "proved",
   "theorems": [
    "C01_counts_after_step",
    "C01_defined"
   ],
   "note": "For every table and step; C01_defined shows the change is defined for legal steps."
  },
  {
   "property": "C02",
   "status": "proved",
   "theorems": [
    "C02_species_lists",
    "C02_partition",
    "C02_dimensions"
   ],
   "note": "For every layout whose sublattice sites partition the supercell."
  },
  {
   "property": "C03",
   "status": "proved",
   "theorems": [
    "C03_active_sites",
    "C03_np_unique",
    "C03_active_sites_any",
    "C03_partition",
    "C03_restrict_laws"
   ],
   "note": ""
  },
  {
   "property": "C04",
   "status": "partial",
   "theorems": [
    "C04_ensemble",
    "C04_split",
    "C04_disjoint_cover",
    "C04_codes_keep_species_partial",
    "C04_light_vacancy_refuted",
    "C04_species_groups",
    "C04_wf_reachable"
   ],
   "note": "Site/active/encoding parts are proved in full. Codes keep their species only if a vacancy in the group weighs more than 1% of it; refuted otherwise (C04_light_vacancy_refuted)."
  },
  {
   "property": "C05",
   "status": "proved",
   "theorems": [
    "C05_flip_legal",
    "C05_flip_total",
    "C05_flip_probability",
    "C05_flip_symmetric"
   ],
   "note": "Exact proposal probabilities, legality, totality and symmetry for every usher built by the constructor."
  },
  {
   "property": "C06",
   "status": "proved",
   "theorems": [
    "C06_swap_legal",
    "C06_swap_conserves",
    "C06_swap_total",
    "C06_swap_probability",
    "C06_swap_symmetric"
   ],
   "note": "Includes conservation of every species count."
  },
  {
   "property": "C07",
   "status": "proved",
   "theorems": [
    "C07_multistep_chain",
    "C07_multistep_reach",
    "C07_multistep_inherits",
    "C07_multistep_swap"
   ],
   "note": "For any inner proposer with the stated step legality; swap instance given."
  },
  {
   "property": "C08",
   "status": "proved",
   "theorems": [
    "C08_probabilities",
    "C08_add_raises_iff",
    "C08_delegates"
   ],
   "note": "Weights normalise for every accepted sequence of additions."
  },
  {
   "property": "C09",
   "status": "proved",
   "theorems": [
    "C09_table_flip_legal",
    "C09_constraints_kept",
    "C09_table_flip_total"
   ],
   "note": "Tables of pairwise different, non-opposite rows that conserve sites; swaps are covered by C06. Also: constraints kept, never raises."
  },
  {
   "property": "C10",
   "status": "proved",
   "theorems": [
    "C10_priori_factor"
   ],
   "note": "Over the reals (standard-library axioms of Reals). Transition probabilities sum over all site selections. Numerical tolerances are exact comparisons."
  },
  {
   "property": "C11",
   "status": "proved",
   "theorems": [
    "C11_acceptance",
    "C11_downhill",
    "C11_detailed_balance",
    "C11_random_balance",
    "C11_flip_balance",
    "C11_swap_balance",
    "C11_tableflip_balance"
   ],
   "note": "Over the reals. Acceptance interval, downhill moves, detailed balance for any proposer with exact a-priori factor, and instances for flips, swaps and table flips."
  },
  {
   "property": "C12",
   "status": "proved",
   "theorems": [
    "C12_step_all_or_nothing",
    "C12_step_defined"
   ],
   "note": "Any proposer; the uniform draw is an argument (log of a zero draw raises)."
  },
  {
   "property": "C13",
   "status": "proved",
   "theorems": [
    "C13_recorded_values",
    "C13_run_defined"
   ],
   "note": "Any number of walkers, steps and thinning; by induction over the run. C13_run_defined shows runs do not raise."
  },
  {
   "property": "C14",
   "status": "partial",
   "theorems": [
    "C14_current_cell_partial",
    "C14_step_partial",
    "C14_own_array_partial",
    "C14_stored_features_refuted"
   ],
   "note": "Proved for the current cell along every history (recorded and cached features, enthalpy, reported changes, when the cell changes) and for cells that still hold the array they were given. Refuted in general: after an in-cell step the cell's trace aliases the walker row, so an accepted hop overwrites the occupancy stored for the cell that was left while its cached features stay."
  },
  {
   "property": "C15",
   "status": "proved",
   "theorems": [
    "C15_beta_consistent",
    "C15_multicell_temperature",
    "C15_annealing",
    "C15_annealing_rejects"
   ],
   "note": "Assignment histories, multi-cell assignment, annealing without streaming. The Boltzmann-constant setter of a multi-cell kernel does not reach its cells (modelled, noted in DESIGN.md)."
  },
  {
   "property": "C16",
   "status": "proved",
   "theorems": [
    "C16_window",
    "C16_never_raises"
   ],
   "note": "Runs of any length started inside the window, any proposal the MCUsher can make, any random numbers in (0,1); exact arithmetic. Starting outside the window (where the code indexes the entropy table with an out-of-window bin) is not covered."
  },
  {
   "property": "C17",
   "status": "proved",
   "theorems": [
    "C17_counters",
    "C17_monotone",
    "C17_step"
   ],
   "note": "As C16, for modification schedules that keep the factor positive."
  },
  {
   "property": "C18",
   "status": "partial",
   "theorems": [
    "C18_mean_features_partial",
    "C18_update_period_refuted"
   ],
   "note": "Proved for update_period = 1; false of the code for larger periods (C18_update_period_refuted): visits between updates overwrite the mean."
  },
  {
   "property": "C19",
   "status": "proved",
   "theorems": [
    "C19_fugacity_change",
    "C19_fugacity_value",
    "C19_charge_value",
    "C19_charge_change",
    "C19_charge_sign",
    "C19_hyperplane_value",
    "C19_hyperplane_change",
    "C19_fugacity_rejected"
   ],
   "note": "Fugacity, square charge and square hyperplane biases: value in terms of the species carried by each site, and change = difference for every allowed step (sites may repeat). Fugacity needs positive fractions on a layout; logarithms are over the reals (stdlib axioms). numpy infinities of zero fractions not modelled."
  },
  {
   "property": "C20",
   "status": "proved",
   "theorems": [
    "C20_parameters",
    "C20_assign_complete",
    "C20_assign_rejected",
    "C20_chemical_work"
   ],
   "note": "Any history of assignments (valid or rejected), deletions, splits, freezing; the state after an exception inside a split is not modelled. Direct user assignment of natural_parameters (public setter) is not among the operations."
  },
  {
   "property": "C21",
   "status": "partial",
   "theorems": [
    "C21_no_potentials",
    "C21_feature_change_partial",
    "C21_repeated_site_refuted"
   ],
   "note": "False of the code for steps that repeat a site once chemical potentials are set (C21_repeated_site_refuted); proved for steps with distinct sites and, without potentials, for all steps, given a processor with exact changes."
  },
  {
   "property": "C22",
   "status": "proved",
   "theorems": [
    "C22_run_stored",
    "C22_trajectory_unique",
    "C22_history",
    "C22_raises"
   ],
   "note": "Any history of in-memory runs."
  },
  {
   "property": "C23",
   "status": "partial",
   "theorems": [
    "C23_stream",
    "C23_same_samples_partial",
    "C23_leftover_lost_refuted",
    "C23_after_memory_run_refuted",
    "C23_stale_start_refuted"
   ],
   "note": "Holds when the chunk size divides the number of samples and the container is empty; refuted otherwise: leftover samples are lost, and streaming into a non-empty container raises."
  },
  {
   "property": "C24",
   "status": "partial",
   "theorems": [
    "C24_selected",
    "C24_zero_thin",
    "C24_minimum",
    "C24_minimum_occupancy_partial",
    "C24_efficiency_bounds",
    "C24_minimum_occupancy_walkers_refuted",
    "C24_minimum_occupancy_single_refuted"
   ],
   "note": "Selection, flattening, minimum value and efficiency are proved. The minimum occupancy is proved for the flat query with more than one entry; refuted for one entry (a site code is returned) and for the per-walker query (every walker is read at the first walker's index)."
  },
  {
   "property": "C25",
   "status": "partial",
   "theorems": [
    "C25_append",
    "C25_load",
    "C25_history",
    "C25_dict",
    "C25_unused_rows_refuted"
   ],
   "note": "Proved for containers without unused allocated rows (as after any run); refuted with unused rows."
  },
  {
   "property": "C26",
   "status": "proved",
   "theorems": [
    "C26_change",
    "C26_value"
   ],
   "note": "Full and local evaluation modelled from evaluator.pyx and processor/expansion.py; the change theorem covers every flip list over sites in at least one cluster (see C70 for the others); C26_value gives each entry as a mean of tensor entries."
  },
  {
   "property": "C27",
   "status": "proved",
   "theorems": [
    "C27_change"
   ],
   "note": "Same scope as C26 for the decomposition processor."
  },
  {
   "property": "C28",
   "status": "proved",
   "theorems": [
    "C28_value",
    "C28_change",
    "C28_symmetry_needed"
   ],
   "note": "The matrix entries are given (pymatgen); exact arithmetic. C28_value: the feature is the sum over all ordered pairs of ions, with indices counted from the species lists. C28_change: for every list of flips, also repeated sites, the change is the difference, for symmetric matrices. C28_symmetry_needed: without symmetry it is not."
  },
  {
   "property": "C29",
   "status": "proved",
   "theorems": [
    "C29_property",
    "C29_change"
   ],
   "note": "Includes construction of both processors from coefficients, well-formedness of the processors, and changes."
  },
  {
   "property": "C30",
   "status": "partial",
   "theorems": [
    "C30_value_partial",
    "C30_change_partial",
    "C30_difference",
    "C30_shapes_refuted",
    "C30_empty_refuted"
   ],
   "note": "C30_difference: for any list of expansion, decomposition and Ewald processors the property change is the difference of the properties. C30_value_partial, C30_change_partial: property = sum over parts = coefficients dot features, when all parts after the first have features of one shape. C30_shapes_refuted: otherwise compute_feature_vector raises (np.append of a ragged list). C30_empty_refuted: without parts features raise and the property is 0."
  },
  {
   "property": "C31",
   "status": "proved",
   "theorems": [
    "C31_encode_decode",
    "C31_decode_encode",
    "C31_rejects",
    "C31_structure"
   ],
   "note": ""
  },
  {
   "property": "C32",
   "status": "proved",
   "theorems": [
    "C32_correlations",
    "C32_interactions",
    "C32_changes"
   ],
   "note": "Each orbit's work is a list of writes; any interleaving gives the sequential result because the slots are distinct. Data races inside a single write and the C memory model are not modelled."
  },
  {
   "property": "C33",
   "status": "proved",
   "theorems": [
    "C33_ids",
    "C33_owner",
    "C33_remove_functions",
    "C33_remove_orbits",
    "C33_orbits_left"
   ],
   "note": "Reachable subspaces: the constructor followed by any list of removals of orbits or functions, basis changes and table requests. The dictionary of orbits is modelled in ascending order of sizes."
  },
  {
   "property": "C34",
   "status": "proved",
   "theorems": [
    "C34_entry",
    "C34_bijection",
    "C34_loop"
   ],
   "note": "Stride vector, flat index loop and C-order tensors."
  },
  {
   "property": "C35",
   "status": "proved",
   "theorems": [
    "C35_partition"
   ],
   "note": "The cluster permutations are assumed to form a group and to exchange only sites with the same functions; C89 proves both for the orbits of a crystal."
  },
  {
   "property": "C36",
   "status": "partial",
   "theorems": [
    "C36_fraction",
    "C36_weighted_partial",
    "C36_sum_refuted"
   ],
   "note": "Proved: correlations of an indicator orbit are non-negative fractions and the sum weighted with the numbers of symmetric variants is one. The plain sum of the statement is refuted for a symmetric pair: tensors are divided by the number of variants. PottsSubspace(remove_last_cluster) and geometry outside."
  },
  {
   "property": "C37",
   "status": "proved",
   "theorems": [
    "C37_groups",
    "C37_classes"
   ],
   "note": "Groups are ascending, disjoint, ordered by first member, have at least two members, and contain two different orbits iff the orbits have the same clusters as unordered site collections."
  },
  {
   "property": "C38",
   "status": "proved",
   "theorems": [
    "C38_invert",
    "C38_invert_twice",
    "C38_complete",
    "C38_cyclic_diverges"
   ],
   "note": "Inverse: membership is transposed, rows strictly descending, inverting twice gives the same relation. Completion: for acyclic tables with entries in range the loop ends within as many rounds as there are orbits and gives the transitive closure. C38_cyclic_diverges: an orbit reaching a cycle makes the loop run forever."
  },
  {
   "property": "C39",
   "status": "proved",
   "theorems": [
    "C39_forms",
    "C39_sublattices",
    "C39_supercells"
   ],
   "note": "Modelled exactly over Z (IntMath.v). C39_forms: the enumerated Hermite forms are exactly the upper triangular 3x3 matrices with given determinant and reduced off-diagonal entries, each once. C39_sublattices: every integer matrix of that determinant spans the lattice of exactly one of them. C39_supercells: the symmetry reduction keeps one representative per class."
  },
  {
   "property": "C40",
   "status": "proved",
   "theorems": [
    "C40_terminates",
    "C40_bezout"
   ],
   "note": "Extended Euclid over Z with the sign handling of the code; termination of the recursion and the Bezout identity for all integers."
  },
  {
   "property": "C41",
   "status": "partial",
   "theorems": [
    "C41_decomposition_partial",
    "C41_smith_partial",
    "C41_smith_refuted"
   ],
   "note": "C41_decomposition_partial: M A T = S, M and T invertible over Z, S diagonal, for every matrix and every size. C41_smith_partial: the divisibility chain for min(n,d) <= 2. C41_smith_refuted: the final pass does not give the divisibility chain in general: diag(2,4,3) gives (2,1,12)."
  },
  {
   "property": "C42",
   "status": "partial",
   "theorems": [
    "C42_raises",
    "C42_sound",
    "C42_lattice_partial",
    "C42_one_zero_partial",
    "C42_infeasible_refuted",
    "C42_missing_refuted",
    "C42_default_refuted"
   ],
   "note": "Soundness of every returned solution and the raised cases are proved in general. Completeness of the returned lattice is proved for independent rows (C42_lattice_partial) and for exactly one zero on the diagonal (C42_one_zero_partial). Refuted in general: only the vectors after the last zero diagonal index are returned, inconsistent zero rows are not checked, and the default right-hand side has the wrong length for non-square matrices."
  },
  {
   "property": "C43",
   "status": "partial",
   "theorems": [
    "C43_one_dim_partial",
    "C43_one_dim_all_partial",
    "C43_unbounded",
    "C43_tolerance_refuted",
    "C43_natural_partial",
    "C43_natural_step_partial"
   ],
   "note": "Exact rationals; the linear program is an oracle whose bounds are right up to the tolerance. Complete and sound for one variable when the tolerance times every component is below 1 (C43_one_dim_partial), for several variables with step 1 (C43_natural_partial), sound for every step (C43_natural_step_partial). C43_tolerance_refuted: components beyond the inverse tolerance make the rounding admit an infeasible point. Raising means infinitely many solutions (C43_unbounded). Missing: floats, and completeness of the linear program itself."
  },
  {
   "property": "C44",
   "status": "proved",
   "theorems": [
    "C44_mask_exact",
    "C44_mask_defined"
   ],
   "note": "Per-species list of maxima (the only use in the code)."
  },
  {
   "property": "C45",
   "status": "partial",
   "theorems": [
    "C45_accept",
    "C45_reject_partial",
    "C45_tolerance",
    "C45_coordinates_partial",
    "C45_regular",
    "C45_compositions",
    "C45_fractions",
    "C45_species",
    "C45_inequality_refuted",
    "C45_large_refuted",
    "C45_redundant_refuted",
    "C45_doubled_refuted"
   ],
   "note": "Proved for every space: feasible compositions are accepted unchanged (with rounding too when whole), whole infeasible ones are rejected in every format while (largest denominator of a right side) x (supercell size) stays below 1e6, and everything accepted meets nonnegativity, charge balance and sublattice sizes within the tolerance. Counts to coordinates and back is the identity both ways, for fractional compositions too, and whole compositions have whole coordinates, under: constraint denominators at most 1000, a pseudo-inverse P with V P V = V (numpy's contract), a solvable base size, and a system whose integer solutions are all found (shown for independent rows, or one dependent row). Counts to compositions and back is the identity, each fraction is count/size, and compositions to counts and back keep every fraction (fractions below 1e-8 are dropped by pymatgen, so they are excluded). Species counts are the totals per species. Refuted: inequality constraints are never checked by the translation; in cells above 1e6 the tolerance accepts infeasible whole counts; with two redundant constraints some feasible compositions have no coordinates; a space feasible only in doubled cells raises. Not modelled: optimize_basis, floats."
  },
  {
   "property": "C46",
   "status": "partial",
   "theorems": [
    "C46_string_partial",
    "C46_refusal",
    "C46_numbers",
    "C46_manager_partial",
    "C46_lost_number_refuted",
    "C46_rounding_refuted",
    "C46_label_refuted",
    "C46_second_refuted"
   ],
   "note": "Proved for strings in the documented form whose numbers are read exactly (integers always are): the returned row and right side demand just the written inequality for every composition, an unknown species is the only reason for refusal, and the stored lists of a fresh object demand just the conjunction of the stated constraints. Refuted in general: a number before the last term of a side is dropped silently, a number within np.isclose of an integer is rounded (50000.5 becomes 50000), a tuple with an unknown label is dropped, and a second assignment is ignored."
  },
  {
   "property": "C47",
   "status": "partial",
   "theorems": [
    "C47_duplicates_partial",
    "C47_cutoffs_partial",
    "C47_external_refuted",
    "C47_matching_groups",
    "C47_matching_partial",
    "C47_decimals_refuted"
   ],
   "note": "Proved with external terms excluded and for the default decimals. False in the code otherwise: keeping external terms always raises (C47_external_refuted); get_matching_corr_duplicate_indices passes its decimals argument as cutoffs (C47_decimals_refuted)."
  },
  {
   "property": "C48",
   "status": "partial",
   "theorems": [
    "C48_aligned_partial",
    "C48_normalized",
    "C48_add_properties",
    "C48_add_weights",
    "C48_add_entry",
    "C48_remove_properties",
    "C48_remove_entry",
    "C48_indices_partial",
    "C48_missing_property_refuted",
    "C48_remove_stops_refuted",
    "C48_stale_indices_refuted"
   ],
   "note": "Proved for histories where new entries get the names of the present ones (alignment) and for histories without removals (index sets). False otherwise: an entry added without properties makes the vector unreadable, remove_properties stops at the first entry lacking the key, remove_entry leaves stale index sets."
  },
  {
   "property": "C49",
   "status": "partial",
   "theorems": [
    "C49_unique",
    "C49_ewald",
    "C49_minimum_kept",
    "C49_energies_partial",
    "C49_last_term_refuted",
    "C49_above"
   ],
   "note": "Selection proved exact; the Ewald energies read from stored features are only right when the Ewald term is the last external term (C49_last_term_refuted)."
  },
  {
   "property": "C50",
   "status": "partial",
   "theorems": [
    "C50_round_trip",
    "C50_variables",
    "C50_rounding",
    "C50_rejects",
    "C50_default_layout",
    "C50_restricted_layout",
    "C50_split_layout_partial",
    "C50_light_vacancy_refuted"
   ],
   "note": "get_variables_from_sublattices, get_occupancy_from_variables, get_variable_values_from_occupancy and the normalization constraints are modelled. Encode and decode are inverse bijections between allowed occupancies and feasible 0/1 vectors for every layout in which codes stand for the species of the site spaces; default, restricted and split sublattices have such layouts, split ones when no group drops a light vacancy (C04). Refuted without that: a dropped vacancy is decoded as another species."
  },
  {
   "property": "C51",
   "status": "proved",
   "theorems": [
    "C51_value",
    "C51_exact",
    "C51_auxiliary",
    "C51_objective",
    "C51_products",
    "C51_refused",
    "C51_cutoff"
   ],
   "note": "get_expression_and_auxiliary_from_terms with exact numbers, for all term lists, cutoffs and assignments: value, uniqueness of the auxiliary variables, which products get one, when the problem is refused, and a bound on what the cutoff drops. The order of the point terms in the sum is not modelled."
  },
  {
   "property": "C52",
   "status": "partial",
   "theorems": [
    "C52_value",
    "C52_groups",
    "C52_ground_state",
    "C52_canonical",
    "C52_semigrand",
    "C52_full_table",
    "C52_narrow_table_refuted"
   ],
   "note": "Terms of expansion, decomposition, electrostatic and chemical-potential objectives have the value of the processors for every feasible assignment, so optimal solutions are exactly the ground states (canonical and semigrand). Refuted without a wide table: potentials are read for every species of the original site space, so a split that drops the last species makes building the terms raise."
  },
  {
   "property": "C53",
   "status": "partial",
   "theorems": [
    "C53_run",
    "C53_improving",
    "C53_continue_partial",
    "C53_best",
    "C53_distinct_partial",
    "C53_first_refuted",
    "C53_restart_refuted",
    "C53_rows_refuted",
    "C53_duplicates_refuted",
    "C53_steps_refuted"
   ],
   "note": "Proved for runs that clear earlier results: such a run never raises, keeps the last k strict improvements (at most k, strictly improving, the last one best of all seen) and stores exactly those; get_best_sqs ranks them, loses none but matches and those beyond the limit. With clear_previous=False the claim is false: the best score restarts at infinity (C53_restart_refuted), saving raises when old and new do not fit in the new rows (C53_rows_refuted), equal structures survive removal of duplicates (C53_duplicates_refuted)."
  },
  {
   "property": "C54",
   "status": "proved",
   "theorems": [
    "C54_judged",
    "C54_constant",
    "C54_shift",
    "C54_tolerance",
    "C54_first",
    "C54_zero_refuted",
    "C54_smallest_refuted"
   ],
   "note": "Proved in full: the result is the first candidate whose remaining samples are judged converged, else 0; the verdict is characterised with real means and standard deviations. Two facts against the documentation: 0 is also returned when nothing converges (C54_zero_refuted), and the result need not be the smallest number that leaves converged samples (C54_smallest_refuted). Floating point of np.arange and np.std is not modelled."
  },
  {
   "property": "C55",
   "status": "proved",
   "theorems": [
    "C55_features",
    "C55_change",
    "C55_diameter_unique",
    "C55_subspace"
   ],
   "note": "For correlation and interaction distances: features are absolute differences to the target with the largest diameter in front up to which all features of orbits are within the tolerance (unique; 0 if none or if its weight is 0), the change for a step is the difference of the features, for every processor built from a consistent subspace."
  },
  {
   "property": "C56",
   "status": "partial",
   "theorems": [
    "C56_prune_partial",
    "C56_multiplicity_partial",
    "C56_fixed_dropped_refuted"
   ],
   "note": "Proved when the constant and every external coefficient stay: coefficients and functions stay aligned and predictions are the sums over the kept terms of original coefficients and original features; with with_multiplicity external terms always stay. Refuted otherwise: when the constant or an external coefficient is below the threshold, pruning raises or leaves an expansion whose predictions raise (C56_fixed_dropped_refuted, C56_constant_raises, C56_constant_broadcast)."
  },
  {
   "property": "C57",
   "status": "proved",
   "theorems": [
    "C57_normal",
    "C57_translation",
    "C57_copy",
    "C57_equal_iff",
    "C57_reflexive",
    "C57_symmetric",
    "C57_moved"
   ],
   "note": "Rational coordinates in any dimension; the tolerance is at most one half. C57_separation_needed shows that closer sites break symmetry. Site spaces take no part in the comparison, as in the code."
  },
  {
   "property": "C58",
   "status": "partial",
   "theorems": [
    "C58_equality_exact_partial",
    "C58_prefix",
    "C58_equality_refuted"
   ],
   "note": "Equality zips and so ignores extra species: exact for full compositions or ones leaving more than 1% vacancy, refuted in between."
  },
  {
   "property": "C59",
   "status": "partial",
   "theorems": [
    "C59_set_all",
    "C59_nothing",
    "C59_read",
    "C59_read_refuted",
    "C59_threads",
    "C59_default",
    "C59_again",
    "C59_processor",
    "C59_subspace_refuted",
    "C59_empty_refuted"
   ],
   "note": "Setting: every object of the container and no other gets the accepted value, or nothing changes; thread numbers lie between 1 and what the machine offers. Reading returns only the value of the first object, so objects set one by one to different values are not told apart (C59_read_refuted). Processors without a number use the default, not the number of the subspace as documented (C59_subspace_refuted)."
  },
  {
   "property": "C60",
   "status": "partial",
   "theorems": [
    "C60_idempotent",
    "C60_spelling",
    "C60_name",
    "C60_listed",
    "C60_factory",
    "C60_every_spelling",
    "C60_separators_refuted",
    "C60_unsplit_refuted",
    "C60_key_refuted"
   ],
   "note": "Dashes and camel caps in any mixture give the name; normalising is idempotent; every spelling makes the class of that name. Spaces and underscores do not separate words, and all-capitals or unseparated small letters are not understood (C60_separators_refuted). ASCII only."
  },
  {
   "property": "C61",
   "status": "partial",
   "theorems": [
    "C61_default_layout_partial",
    "C61_overlap_refuted"
   ],
   "note": "Holds when the unique site spaces have different species lists; refuted when two site spaces have the same species with different measures."
  },
  {
   "property": "C62",
   "status": "partial",
   "theorems": [
    "C62_order_partial",
    "C62_total_partial",
    "C62_uniform_total",
    "C62_vacancy_last_refuted",
    "C62_total_refuted"
   ],
   "note": "Holds without explicit vacancies and with totals below 0.99 or equal to 1; refuted otherwise."
  },
  {
   "property": "C63",
   "status": "proved",
   "theorems": [
    "C63_symmetric",
    "C63_composite"
   ],
   "note": ""
  },
  {
   "property": "C64",
   "status": "partial",
   "theorems": [
    "C64_sublattices",
    "C64_setter",
    "C64_uniform_lengths_partial",
    "C64_step_probabilities_refuted"
   ],
   "note": "Refuted: the multi-step constructor raises for every accepted list of step probabilities (it reads an attribute that it does not set); only the uniform default works. The part about sublattice probabilities is proved."
  },
  {
   "property": "C65",
   "status": "proved",
   "theorems": [
    "C65_species_counts"
   ],
   "note": "All valid occupancies."
  },
  {
   "property": "C66",
   "status": "partial",
   "theorems": [
    "C66_work_partial",
    "C66_unfreeze_refuted"
   ],
   "note": "False of the code: the table of potentials is not rebuilt when a sublattice becomes active or inactive (C66_unfreeze_refuted)."
  },
  {
   "property": "C67",
   "status": "proved",
   "theorems": [
    "C67_detailed_balance"
   ],
   "note": "Exact rational entropies, real exponentials."
  },
  {
   "property": "C68",
   "status": "partial",
   "theorems": [
    "C68_between_hops_partial",
    "C68_hop_refuted"
   ],
   "note": "Proved while no hop is accepted; refuted for accepted hops, which reuse the bias change of an earlier step of the target cell."
  },
  {
   "property": "C69",
   "status": "partial",
   "theorems": [
    "C69_default_cells_partial",
    "C69_hop_periods_partial",
    "C69_cell_probabilities_refuted"
   ],
   "note": "Proved for the default cell probabilities and for hop-period probabilities; refuted for given cell probabilities, with which the constructor always raises (kernel_p versus _kernel_p)."
  },
  {
   "property": "C70",
   "status": "partial",
   "theorems": [
    "C70_no_cluster_refuted"
   ],
   "note": "False of the code: the per-site dictionary has no key for a site in no cluster, so any flip list starting with such a site raises KeyError although the full vectors do not change; C70_no_cluster_refuted proves both facts for all processors."
  },
  {
   "property": "C71",
   "status": "proved",
   "theorems": [
    "C71_tables"
   ],
   "note": "The geometric search for cluster sites is a function parameter; its independence of the row order is a hypothesis."
  },
  {
   "property": "C72",
   "status": "partial",
   "theorems": [
    "C72_subspace",
    "C72_fresh",
    "C72_empty_refuted",
    "C72_potts_partial",
    "C72_potts_refuted"
   ],
   "note": "Proved for ClusterSubspace with orbits (or whose tables were not asked for) and for Potts subspaces that keep all decorations. False for a subspace left without orbits that was asked for a table since: loading raises (C72_empty_refuted). False for Potts subspaces created without the last decorations: from_dict removes one more function of every orbit (or raises) and leaves the evaluator with the old functions; C72_potts_refuted proves this for all reachable subspaces with an orbit."
  },
  {
   "property": "C73",
   "status": "partial",
   "theorems": [
    "C73_defaults_partial",
    "C73_features_partial",
    "C73_weights_refuted",
    "C73_tolerance_refuted"
   ],
   "note": "Proved: all features but the first survive, and with unit weights and the default tolerance the processor is the same. Refuted: weights and tolerance are not stored (C73_weights_refuted, C73_tolerance_refuted)."
  },
  {
   "property": "C74",
   "status": "proved",
   "theorems": [
    "C74_constant"
   ],
   "note": "The first column is left out by the code because it is the constant one; numpy comparison modelled as exact equality."
  },
  {
   "property": "C75",
   "status": "proved",
   "theorems": [
    "C75_weights"
   ],
   "note": "Over the reals; uses the axioms of Coq's Reals."
  },
  {
   "property": "C76",
   "status": "proved",
   "theorems": [
    "C76_components",
    "C76_fixed",
    "C76_space",
    "C76_default"
   ],
   "note": "Rows must not hold nonzero entries that count as zero (1e-8), a stated hypothesis; the sublattice-size rows and a vanishing charge row that the code skips are shown to hold always."
  },
  {
   "property": "C77",
   "status": "partial",
   "theorems": [
    "C77_report_partial",
    "C77_stale_refuted",
    "C77_cut_refuted"
   ],
   "note": "Proved for an object without a cached occupancy and values not below the solution. Refuted: astype(int) cuts values slightly below one (any tolerance), and a second solve without reset reports the occupancy of the first."
  },
  {
   "property": "C78",
   "status": "proved",
   "theorems": [
    "C78_closest",
    "C78_number",
    "C78_vector",
    "C78_exact",
    "C78_multiple"
   ],
   "note": "Includes CPython's continued fraction loop (limit_denominator) with a proof that it terminates and returns a closest fraction. Floats are their exact rational values; the division in the tolerance check is exact."
  },
  {
   "property": "C79",
   "status": "proved",
   "theorems": [
    "C79_complete",
    "C79_values",
    "C79_polynomials"
   ],
   "note": "Values are exact reals. The model covers the indicator, sinusoid, polynomial, Chebyshev and Legendre bases; numpy's polynomial evaluation is modelled by the three-term recurrences."
  },
  {
   "property": "C80",
   "status": "partial",
   "theorems": [
    "C80_orthonormal_partial",
    "C80_again",
    "C80_measure_refuted"
   ],
   "note": "Proved for site spaces whose measures sum to one, with the QR factorisation as an argument of which only A = QR, orthonormal columns of Q and triangular R are used. False for spaces with totals between 0.99 and 1 (C80_measure_refuted)."
  },
  {
   "property": "C81",
   "status": "partial",
   "theorems": [
    "C81_rotations_partial",
    "C81_accepted",
    "C81_binary_partial",
    "C81_binary_refuted",
    "C81_negative_index_refuted"
   ],
   "note": "Proved for three or more species and any sequence of calls whose indices name different functions, and for two species after an odd number of calls. False for two species after an even number of calls (rotation_array becomes -I) and for an index and its negative twin (the function is scaled by 2cos(angle)-1)."
  },
  {
   "property": "C82",
   "status": "proved",
   "theorems": [
    "C82_verdicts",
    "C82_sinusoid",
    "C82_indicator"
   ],
   "note": "Exact reals; the tolerances are those of np.allclose."
  },
  {
   "property": "C83",
   "status": "partial",
   "theorems": [
    "C83_read_partial",
    "C83_read_orthonormalized",
    "C83_none_refuted"
   ],
   "note": "The orthonormalisation array None of a fresh basis becomes np.array(None). All else survives, and so does everything of a basis that was orthonormalised."
  },
  {
   "property": "C84",
   "status": "partial",
   "theorems": [
    "C84_once_partial",
    "C84_invalid_id",
    "C84_accepted",
    "C84_prefix_refuted"
   ],
   "note": "Proved when measures sum to one. False otherwise: site spaces are compared up to the shorter one, so a basis over another site space may be rotated too (C84_prefix_refuted)."
  },
  {
   "property": "C85",
   "status": "proved",
   "theorems": [
    "C85_uniform",
    "C85_decodes"
   ],
   "note": ""
  },
  {
   "property": "C86",
   "status": "partial",
   "theorems": [
    "C86_neutral",
    "C86_attempts",
    "C86_reachable",
    "C86_seed_refuted",
    "C86_fixed_refuted"
   ],
   "note": "Refuted: the first occupancy ignores the given seed, so the same seed gives different results; with one species on every site the generator raises although the only occupancy is neutral. The rest is proved."
  },
  {
   "property": "C87",
   "status": "partial",
   "theorems": [
    "C87_counts_partial",
    "C87_end_member_refuted",
    "C87_short_refuted",
    "C87_single_refuted",
    "C87_tuple_refuted"
   ],
   "note": "Proved for compositions that list every species of their sublattice (a vacancy may be implied), one composition per sublattice, tuples normalised. Refuted: a species that is not listed (end members) raises; an incomplete composition is accepted by a sublattice without vacancies and the rest gets the first species; one composition for several sublattices leaves the others filled with their first species; a tuple that needs normalising raises."
  },
  {
   "property": "C88",
   "status": "partial",
   "theorems": [
    "C88_sound",
    "C88_pairs",
    "C88_complete_partial",
    "C88_total_partial",
    "C88_skewed_refuted",
    "C88_missing_refuted"
   ],
   "note": "Proved: soundness for any neighbors (C88_sound), completeness for points and pairs (C88_pairs), completeness for all sizes and success when no point of the cell is further from its centre than all sites (for example orthogonal axes with a site at the origin). Refuted: in a skewed cell a triple within the cutoff is in no orbit, because the neighbors are searched around the centre of the cell with a radius that only reaches its sites; KeyError when a size has no cluster within its cutoff and a larger size is listed. Simplified: exact arithmetic, distances compared through squares, neighbors from pymatgen as a specified list."
  },
  {
   "property": "C89",
   "status": "proved",
   "theorems": [
    "C89_orbit",
    "C89_multiplicity",
    "C89_functions"
   ],
   "note": "The operations are taken modulo lattice translations, listed once, with inverses and compositions among them, and mapping sites to sites isometrically (what a space group of the structure gives); exact arithmetic."
  },
  {
   "property": "C90",
   "status": "partial",
   "theorems": [
    "C90_excluded",
    "C90_ignored",
    "C90_unchanged_partial",
    "C90_repeat_refuted",
    "C90_zero_refuted"
   ],
   "note": "Proved: None excludes, other values are ignored, dictionaries without key 1 are unchanged. Refuted: the key is popped from the dictionary of the caller, so a second call with {1: None} generates points; the documented {1: 0} does not exclude points."
  },
  {
   "property": "C91",
   "status": "proved",
   "theorems": [
    "C91_points",
    "C91_sites",
    "C91_rows"
   ],
   "note": "The inverse of the matrix is an input with the inverse property, and the tolerance is assumed to tell the sites of the supercell apart (it is relative to the supercell). lattice_points_in_supercell, make_supercell and coord_list_mapping_pbc of pymatgen are modelled in exact arithmetic. The cache of get_orbit_indices is not modelled."
  },
  {
   "property": "C92",
   "status": "proved",
   "theorems": [
    "C92_invariant",
    "C92_moved",
    "C92_translations"
   ],
   "note": "The orbits are those that the model generates from clusters, with the site indices of C91; the multiplication by the size of the supercell in processors is C26. Operations that do not keep the supercell are outside the statement: they map the occupancy to another supercell."
  },
  {
   "property": "C93",
   "status": "partial",
   "theorems": [
    "C93_basis_partial",
    "C93_two_partial",
    "C93_space_partial",
    "C93_half_refuted"
   ],
   "note": "Size, independence, membership in the lattice and improvement are proved for any number of vectors; that the lattice is kept is proved for at most two vectors of a pure lattice, and for spaces of at most two dimensions. False of the code for three vectors or more (C93_half_refuted): only linear independence is tested, so the result may generate half of the flips. numpy's rank is an argument, assumed to recognise independent tables."
  },
  {
   "property": "C94",
   "status": "partial",
   "theorems": [
    "C94_added",
    "C94_neighbours_partial",
    "C94_line_partial",
    "C94_single_refuted",
    "C94_disconnected_refuted"
   ],
   "note": "That the basis stays and that added flips connect grid points holds always; every composition gets a neighbour when there are at least as many compositions as neighbours asked for; full ergodicity for one dimension. False of the code in general: a neighbour for every composition does not connect the graph (C94_disconnected_refuted), and with fewer than three compositions the query for three neighbours raises (C94_single_refuted). The KD-tree is an argument, assumed to return the nearest points."
  },
  {
   "property": "C95",
   "status": "partial",
   "theorems": [
    "C95_history",
    "C95_sound",
    "C95_complete_partial",
    "C95_all_partial",
    "C95_half_refuted"
   ],
   "note": "Independence of earlier calls, soundness for every step, and exactness (each composition once) for steps that divide the size. For other steps only soundness is proved. Inequalities with the code's tolerance; the equations need regular spaces (see C45) and right-hand sides with denominators up to 1000. False of the code: a step that is a multiple of a factor of the size may raise although the size has compositions (C95_half_refuted)."
  },
  {
   "property": "C96",
   "status": "partial",
   "theorems": [
    "C96_sub",
    "C96_choice",
    "C96_suborbits_partial",
    "C96_hierarchy_partial",
    "C96_min_size_refuted",
    "C96_missing_refuted"
   ],
   "note": "Sub-orbit test and its independence of representatives in full; get_sub_orbits and orbit_hierarchy are exact when min_size is 1 or the level stops above size zero, and there are orbits of every size searched. False of the code otherwise: with no level, a negative one, or one not smaller than the size, min_size is ignored (C96_min_size_refuted); when all orbits of a size between were removed KeyError is raised (C96_missing_refuted)."
  },
  {
   "property": "C97",
   "status": "proved",
   "theorems": [
    "C97_mappings",
    "C97_functions",
    "C97_hierarchy"
   ],
   "note": "Relative to the sub-orbits that get_sub_orbits returns (C96). Coordinates are exact; the default tolerance of is_coord_subset is any positive number not above the site tolerance. Site spaces are assumed invariant under the operations."
  },
  {
   "property": "C98",
   "status": "proved",
   "theorems": [
    "C98_moved",
    "C98_same",
    "C98_repeated",
    "C98_extensive"
   ],
   "note": "any two supercells and any symmetry operation of the crystal (C92 is the case of one supercell that the operation keeps); the property of the decomposition processor follows with C29"
  },
  {
   "property": "C99",
   "status": "proved",
   "theorems": [
    "C99_made",
    "C99_evaluated",
    "C99_every_site"
   ],
   "note": "The neighbor search and the symmetry operations are arguments (as in C88); all sites are active; structure matching is not modelled."
  },
  {
   "property": "C100",
   "status": "partial",
   "theorems": [
    "C100_mean_between",
    "C100_variance_square",
    "C100_statistics_partial",
    "C100_single_refuted",
    "C100_walkers",
    "C100_energies_partial",
    "C100_minimum_energy_partial",
    "C100_removed_refuted"
   ],
   "note": "Holds for at least two selected values (and for any number walker by walker). With one selected value the squeezed array has lost its first axis: the mean of a vector is the mean over its components and the mean of a number raises (C100_single_refuted). Energies follow any later setting or change of the chemical potentials, but once they are removed from the ensemble the energies of earlier samples are reported as their enthalpies (C100_removed_refuted)."
  },
  {
   "property": "C101",
   "status": "partial",
   "theorems": [
    "C101_species_counts_partial",
    "C101_compositions_partial",
    "C101_mean_compositions_partial",
    "C101_single_refuted",
    "C101_sublattice_partial"
   ],
   "note": "Holds for every non-empty selection, except one selected occupancy and a sublattice with a single species, which raises (C101_single_refuted). Means over a sublattice need two selected occupancies, as in C100."
  },
  {
   "property": "C102",
   "status": "partial",
   "theorems": [
    "C102_single_partial",
    "C102_samples_refuted"
   ],
   "note": "Right for one selected sample. With more, the mask of functions is applied to the samples: it raises unless there are as many samples as functions, and then sums energies of samples (C102_samples_refuted)."
  },
  {
   "property": "C103",
   "status": "proved",
   "theorems": [
    "C103_weights",
    "C103_variance",
    "C103_basis",
    "C103_supercell"
   ],
   "note": "Weights for all consistent subspaces; variance of interaction tensors, independence of the orthonormal basis, and mean and variance of the property of a supercell for rational measures and site functions. Supercells in which two clusters have the same sites (aliased clusters) are outside the last theorem."
  },
  {
   "property": "C104",
   "status": "partial",
   "theorems": [
    "C104_correlations_partial",
    "C104_orthogonal_partial",
    "C104_built",
    "C104_even_refuted",
    "C104_removed_refuted"
   ],
   "note": "Proved for orthonormal bases over uniform measures with all functions of each orbit kept; bases that are made and orthonormalised meet the hypotheses. False for a binary basis that was rotated an even number of times (the matrix negates, the functions do not change) and for subspaces from which functions were removed before the rotation."
  },
  {
   "property": "C105",
   "status": "partial",
   "theorems": [
    "C105_independent_partial",
    "C105_maximal_partial",
    "C105_maximal_refuted",
    "C105_zero_refuted"
   ],
   "note": "Independence needs a nonzero first row and a small tolerance. Exactly the rank is reached when the first rows are independent and span the others. Refuted otherwise: a duplicate structure makes a later independent row disappear, and a zero first row is selected."
  },
  {
   "property": "C106",
   "status": "partial",
   "theorems": [
    "C106_selected",
    "C106_all_refuted",
    "C106_limit_partial",
    "C106_limit_refuted"
   ],
   "note": "The result is right whenever the loop ends. Refuted: asking for all samples never returns, and the largest probability is taken over reordered components, since np.unique works on columns."
  },
  {
   "property": "C107",
   "status": "partial",
   "theorems": [
    "C107_selected_partial",
    "C107_single_refuted",
    "C107_orthogonal_refuted"
   ],
   "note": "Proved for two or more samples and features. Refuted: one sample or one feature always raises, as do more orthogonal samples than features. Zero rows (nan) are left out."
  },
  {
   "property": "C108",
   "status": "proved",
   "theorems": [
    "C108_occupancy",
    "C108_codes",
    "C108_order",
    "C108_scale",
    "C108_round_trip",
    "C108_sampled"
   ],
   "note": "Pymatgen's matcher is an argument (the site mapping)."
  },
  {
   "property": "C109",
   "status": "proved",
   "theorems": [
    "C109_gram_plain",
    "C109_gram",
    "C109_similarity",
    "C109_orbit_columns"
   ],
   "note": "Columns of zeros (nan) are left out."
  },
  {
   "property": "C110",
   "status": "partial",
   "theorems": [
    "C110_refine_partial",
    "C110_refine_refuted"
   ],
   "note": "Proved when all vacancies are Vacancy(). Refuted otherwise: another vacancy is removed and then not found."
  },
  {
   "property": "C111",
   "status": "partial",
   "theorems": [
    "C111_order_partial",
    "C111_order_refuted"
   ],
   "note": "Proved without relative tolerance. Refuted with the default one, which refers to the later column."
  },
  {
   "property": "C112",
   "status": "proved",
   "theorems": [
    "C112_energy",
    "C112_types",
    "C112_other",
    "C112_change"
   ],
   "note": "exact rationals instead of floats; flips at sites that belong to a cluster; symmetric Ewald matrix"
  },
  {
   "property": "C113",
   "status": "proved",
   "theorems": [
    "C113_sublattice"
   ],
   "note": "dictionary of the site space taken as exact"
  },
  {
   "property": "C114",
   "status": "partial",
   "theorems": [
    "C114_load_partial",
    "C114_unfreeze_refuted",
    "C114_freeze_refuted"
   ],
   "note": "false after a whole sublattice was frozen or unfrozen: see the refuted theorems"
  },
  {
   "property": "C115",
   "status": "proved",
   "theorems": [
    "C115_by_size",
    "C115_cutoffs",
    "C115_select",
    "C115_by_dict",
    "C115_tight",
    "C115_by_diameter"
   ],
   "note": ""
  },
  {
   "property": "C116",
   "status": "proved",
   "theorems": [
    "C116_copy",
    "C116_symmetric",
    "C116_removed",
    "C116_contains"
   ],
   "note": ""
  },
  {
   "property": "C117",
   "status": "partial",
   "theorems": [
    "C117_equal_partial",
    "C117_equal_refuted",
    "C117_transitive_refuted"
   ],
   "note": "False of the code: the comparison zips the two lists of orbits, so a subspace can equal one with more orbits and as many functions (C117_equal_refuted), and equality is not transitive (C117_transitive_refuted). Proved: subspaces with equal numbers of orbits that compare equal have the same orbits in the same order, numbers of functions and external terms (C117_equal_partial)."
  },
  {
   "property": "C118",
   "status": "proved",
   "theorems": [
    "C118_total",
    "C118_orbit",
    "C118_function"
   ],
   "note": ""
  },
  {
   "property": "C119",
   "status": "partial",
   "theorems": [
    "C119_removed_partial",
    "C119_points_refuted"
   ],
   "note": "False of the code: with cutoffs {} or {1: x} generation returns before the last decorations are removed (C119_points_refuted). Proved when cutoffs of larger clusters are given (C119_removed_partial)."
  },
  {
   "property": "C120",
   "status": "proved",
   "theorems": [
    "C120_accepted",
    "C120_last",
    "C120_processors",
    "C120_refused",
    "C120_lengths",
    "C120_score",
    "C120_best"
   ],
   "note": ""
  },
  {
   "property": "C121",
   "status": "partial",
   "theorems": [
    "C121_target_partial",
    "C121_processors_refuted"
   ],
   "note": "False of the code: from_processors checks the length of a target and then ignores it, as it does weights and tolerances (C121_processors_refuted). Proved for generators that make their processors (C121_target_partial)."
  },
  {
   "property": "C122",
   "status": "partial",
   "theorems": [
    "C122_rows_partial",
    "C122_lattice_refuted"
   ],
   "note": "False of the code: processors are looked up by the sorted rows of the matrix, so other lattice vectors of the same supercell raise a KeyError (C122_lattice_refuted). Proved for rows in another order (C122_rows_partial)."
  },
  {
   "property": "C123",
   "status": "proved",
   "theorems": [
    "C123_round_trip",
    "C123_answers"
   ],
   "note": ""
  },
  {
   "property": "C124",
   "status": "partial",
   "theorems": [
    "C124_features_partial",
    "C124_loaded",
    "C124_shared_refuted",
    "C124_appended_refuted",
    "C124_changed_refuted"
   ],
   "note": "C124_features_partial holds for histories in which an entry belongs to one wrangler, appended entries were processed with the same subspace and changes of subspace go through and keep the primitive cell. Refuted without these: an entry given to two wranglers (C124_shared_refuted), entries appended from another subspace (C124_appended_refuted), a change that raises (C124_changed_refuted). C124_loaded has no condition."
  },
  {
   "property": "C125",
   "status": "partial",
   "theorems": [
    "C125_set_partial",
    "C125_dictionary_refuted"
   ],
   "note": "C125_set_partial holds when every entry has a dictionary of its own and no wrangler holds an entry twice. Refuted otherwise: the dictionary given with an entry is kept, so one dictionary given with two entries is shared (C125_dictionary_refuted)."
  },
  {
   "property": "C126",
   "status": "proved",
   "theorems": [
    "C126_reproducible",
    "C126_recorded",
    "C126_walkers"
   ],
   "note": ""
  },
  {
   "property": "C127",
   "status": "partial",
   "theorems": [
    "C127_table_partial",
    "C127_table_proposals_partial",
    "C127_composite_refuted",
    "C127_multistep_refuted",
    "C127_swaps_refuted",
    "C127_recorded_refuted"
   ],
   "note": "False of the code: steps of composites and multi-steps given by name, and the swapper of table flips, are built without the generator of the kernel (mcusher.py:263-267, 350-354, 540), so they take a seed from the operating system. Proved for table flips that always have a flip for the occupancies of the run; the plain proposals are C126."
  },
  {
   "property": "C128",
   "status": "partial",
   "theorems": [
    "C128_added_partial",
    "C128_init_refuted"
   ],
   "note": "False of the code: the constructor of Composite appends the specification of every step once more after add_mcusher did (mcusher.py:355-356). Proved for steps added later."
  },
  {
   "property": "C129",
   "status": "partial",
   "theorems": [
    "C129_single_partial",
    "C129_mixed_refuted"
   ],
   "note": "Proved for multi-steps of one sub-step; unmixed multi-steps are in C63. Refuted with two sub-steps over a composite of flips and swaps: 7/36 one way and 1/9 back."
  },
  {
   "property": "C130",
   "status": "proved",
   "theorems": [
    "C130_processors",
    "C130_values",
    "C130_composites",
    "C130_composite_values"
   ],
   "note": ""
  },
  {
   "property": "C131",
   "status": "partial",
   "theorems": [
    "C131_default_partial",
    "C131_given_refuted"
   ],
   "note": "Proved when the given coefficients are the multiplicities of orbits. False otherwise: the dictionary has them, but from_dict does not pass them on, so that the loaded processor uses the multiplicities (C131_given_refuted, for all such processors)."
  },
  {
   "property": "C132",
   "status": "proved",
   "theorems": [
    "C132_copy"
   ],
   "note": ""
  },
  {
   "property": "C133",
   "status": "partial",
   "theorems": [
    "C133_no_data_partial",
    "C133_data_refuted"
   ],
   "note": "Proved without regression data, when the coefficients still fit the subspace (see C56). False with regression data as soon as one coefficient is pruned: the constructor compares with the original feature matrix and raises (C133_data_refuted, for all such expansions)."
  },
  {
   "property": "C134",
   "status": "partial",
   "theorems": [
    "C134_values_partial",
    "C134_saved_refuted"
   ],
   "note": "Proved that values stay the same. False for saving: the processor is saved with the pruned subspace and its original coefficients, which the constructor refuses (C134_saved_refuted, whenever functions were removed)."
  },
  {
   "property": "C135",
   "status": "partial",
   "theorems": [
    "C135_expansion_partial",
    "C135_decomposition_partial",
    "C135_ewald_partial",
    "C135_term_refuted"
   ],
   "note": "Proved for expansion and decomposition processors, and for Ewald processors when the subspace has an external term. False otherwise: a default term is added to the subspace of the caller, after which an expansion on it can not be copied and predictions raise (C135_term_refuted)."
  },
  {
   "property": "C136",
   "status": "proved",
   "theorems": [
    "C136_processor",
    "C136_composite",
    "C136_error"
   ],
   "note": ""
  },
  {
   "property": "C137",
   "status": "partial",
   "theorems": [
    "C137_found_partial",
    "C137_unseen",
    "C137_sites_refuted",
    "C137_raises_refuted"
   ],
   "note": "C137_found_partial: a wrong change of one of the first sites is found. False of the code in general: site indices are drawn below the number of primitive cells, so other sites are never flipped (C137_unseen, C137_sites_refuted), and a drawn site with one species raises (C137_raises_refuted)."
  },
  {
   "property": "C138",
   "status": "partial",
   "theorems": [
    "C138_copy_partial",
    "C138_load_partial",
    "C138_vacancies_partial",
    "C138_dropped_refuted",
    "C138_charged_refuted",
    "C138_measure_refuted"
   ],
   "note": "Copies of clusters made from sites with fewer than 99 species (C138_copy_partial), loaded clusters without vacancies (C138_load_partial), site spaces of loaded clusters with default vacancies (C138_vacancies_partial). False of the code in general: vacancies are dropped from the species by loading (C138_dropped_refuted), charged ones come back as default ones (C138_charged_refuted), amounts given with site spaces are not copied (C138_measure_refuted)."
  },
  {
   "property": "C139",
   "status": "proved",
   "theorems": [
    "C139_failed",
    "C139_failed_new",
    "C139_new",
    "C139_append",
    "C139_history"
   ],
   "note": ""
  },
  {
   "property": "C140",
   "status": "partial",
   "theorems": [
    "C140_written_partial",
    "C140_values_refuted",
    "C140_ensembles_refuted"
   ],
   "note": "C140_written_partial: if the container has all traced values of the file and saving returns, all that is read was written. False of the code in general: only the shape of occupancies is compared, so traced values of the file that the container does not have are read although they were not written (C140_values_refuted), and samples of another ensemble are added (C140_ensembles_refuted)."
  },
  {
   "property": "C141",
   "status": "proved",
   "theorems": [
    "C141_reads",
    "C141_new",
    "C141_prune"
   ],
   "note": ""
  },
  {
   "property": "C142",
   "status": "partial",
   "theorems": [
    "C142_stale",
    "C142_prune_partial",
    "C142_reads_refuted",
    "C142_prune_refuted"
   ],
   "note": "Proved: after any assignment, pruning by coefficients makes everything that is read belong to the coefficients again (C142_prune_partial), and until then every read gives what it gave before (C142_stale). Refuted: effective interactions, tensors, weights and interactions of structures stay those of the old coefficients (C142_reads_refuted), and pruning by effective interactions then removes functions by the old ones (C142_prune_refuted)."
  },
  {
   "property": "C143",
   "status": "proved",
   "theorems": [
    "C143_start",
    "C143_composition"
   ],
   "note": ""
  },
  {
   "property": "C144",
   "status": "proved",
   "theorems": [
    "C144_partition",
    "C144_order"
   ],
   "note": ""
  },
  {
   "property": "C145",
   "status": "partial",
   "theorems": [
    "C145_partition_partial",
    "C145_partition_refuted"
   ],
   "note": "Proved when all sites with the same species write their vacancies in the same way. Refuted otherwise: equal site spaces with different hashes are both kept, and every site is in two sublattices."
  },
  {
   "property": "C146",
   "status": "proved",
   "theorems": [
    "C146_flips",
    "C146_swaps"
   ],
   "note": ""
  },
  {
   "property": "C147",
   "status": "proved",
   "theorems": [
    "C147_step_draws",
    "C147_flips",
    "C147_swaps"
   ],
   "note": ""
  },
  {
   "property": "C148",
   "status": "proved",
   "theorems": [
    "C148_flips",
    "C148_swaps"
   ],
   "note": ""
  },
  {
   "property": "C149",
   "status": "partial",
   "theorems": [
    "C149_odd_partial",
    "C149_even_refuted"
   ],
   "note": "Proved for odd thinning intervals. Refuted for even ones when all active sublattices have two species: every step changes the parity of the number of sites that differ from the start and all steps are accepted, so occupancies with odd differences are never recorded, although the kernel's documentation says that all states have the same probability."
  },
  {
   "property": "C150",
   "status": "proved",
   "theorems": [
    "C150_closest",
    "C150_found",
    "C150_on_grid"
   ],
   "note": ""
  },
  {
   "property": "C151",
   "status": "proved",
   "theorems": [
    "C151_terms",
    "C151_injective",
    "C151_steps",
    "C151_basis"
   ],
   "note": ""
  },
  {
   "property": "C152",
   "status": "proved",
   "theorems": [
    "C152_removed",
    "C152_error",
    "C152_any",
    "C152_none"
   ],
   "note": ""
  }
 ]
}