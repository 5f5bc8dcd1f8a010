{"id": "C01", "title": "Composition bookkeeping agrees with the occupancy", "statement": "Whenever the change in species counts reported for a Monte Carlo step is computed without error, adding it to the counts of the current occupancy gives exactly the counts of the occupancy after the step is applied, including when the step touches the same site several times.", "quantifier": "all sublattice layouts (dimension tables), all occupancies, all steps of any length", "why_tests_cant": "Steps of unbounded length and repeated sites over arbitrary layouts; a test fixes one supercell and a few steps.", "anchors": ["smol/moca/occu_utils.py: occu_to_counts, delta_counts_from_step, get_dim_ids_table"]}
{"id": "C02", "title": "Species lists and counts partition the counted sites", "statement": "The site lists per species dimension are strictly increasing, pairwise disjoint, contain exactly the counted sites that carry the species of that dimension, and their lengths equal the reported counts; per sublattice the counts add up to the number of its counted sites. Distinct (sublattice, species) pairs get distinct consecutive dimensions.", "quantifier": "all lists of pairwise disjoint sublattices with distinct species codes, all occupancies whose codes are allowed", "why_tests_cant": "Holds for every supercell, split and restriction pattern, an infinite family.", "anchors": ["smol/moca/occu_utils.py: get_dim_ids_by_sublattice, get_dim_ids_table, occu_to_species_list, occu_to_counts"]}
{"id": "C03", "title": "Restricting sites is monotone, order independent and undone by reset", "statement": "After any history of restrict/reset calls on a sublattice the active sites are exactly the sublattice sites that have not been restricted since the last reset (none for a single species sublattice), in increasing order; restricted and active sites partition the sites; restricting is idempotent and commutes.", "quantifier": "all sublattices, all finite histories of restrict_sites and reset_restricted_sites", "why_tests_cant": "Property of histories of unbounded length.", "anchors": ["smol/moca/sublattice.py: Sublattice.__post_init__, restrict_sites, reset_restricted_sites, restricted_sites", "smol/moca/ensemble.py: restrict_sites, reset_restricted_sites"]}
{"id": "C04", "title": "Splitting a sublattice by species partitions its sites by occupancy", "statement": "When a sublattice is split by disjoint groups of species codes, the resulting sublattices have pairwise disjoint sites, a site goes to the group that contains its current code, every site whose code is in some group is kept, active sites of the parts are exactly the active sites of the parent with a code in that group (none for one-species groups) and encodings are the sorted group codes. Sites with a code in no group are dropped.", "quantifier": "all sublattices, all occupancies, all lists of disjoint code groups", "why_tests_cant": "Ranges over all partitions and all occupancies.", "anchors": ["smol/moca/sublattice.py: Sublattice.split_by_species", "smol/moca/ensemble.py: split_sublattice_by_species"]}
{"id": "C05", "title": "Flip proposals are legal single flips", "statement": "Every flip proposal changes exactly one site, that site is an active site of an active sublattice, and the new code is an allowed code of that sublattice different from the current one; every such flip can be proposed and, seen from the flipped occupancy, the reverse flip is proposed with the same probability.", "quantifier": "all sublattice layouts, all occupancies, all outcomes of the random generator", "why_tests_cant": "All random streams and all occupancies.", "anchors": ["smol/moca/kernel/mcusher.py: MCUsher.get_random_sublattice, Flip.propose_step"]}
{"id": "C06", "title": "Swap proposals conserve composition", "statement": "Every swap proposal is either empty or exchanges the species of two different active sites of one sublattice carrying different species; applying it leaves every per-sublattice species count unchanged and codes allowed stay allowed; it is empty only if all active sites of the chosen sublattice carry one species. The reverse swap is proposed with the same probability.", "quantifier": "all sublattice layouts, all occupancies, all outcomes of the random generator", "why_tests_cant": "All random streams and all occupancies.", "anchors": ["smol/moca/kernel/mcusher.py: Swap.propose_step"]}
{"id": "C07", "title": "Multi-step proposals never touch a site in two sub-steps and chain consistently", "statement": "In a multi-step proposal no two kept sub-steps share a site, each kept sub-step is a proposal of the underlying usher for the occupancy obtained by applying the earlier ones, and legality or composition conservation of the underlying usher carries over to the whole step.", "quantifier": "all underlying ushers, step lengths and random streams", "why_tests_cant": "Arbitrary chain lengths and arbitrary underlying ushers.", "anchors": ["smol/moca/kernel/mcusher.py: MultiStep.propose_step"]}
{"id": "C08", "title": "Composite usher picks by normalised weights and delegates", "statement": "After any sequence of add_mcusher calls the selection probabilities are the weights divided by their sum, add to one when the sum is non zero, are aligned with the ushers, and every proposal is a proposal of one of the ushers.", "quantifier": "all sequences of added ushers with any weights", "why_tests_cant": "Histories of unbounded length.", "anchors": ["smol/moca/kernel/mcusher.py: Composite.add_mcusher, Composite._update_p, Composite.propose_step"]}
{"id": "C09", "title": "Table flips realise exactly a table vector on active sites", "statement": "A table-flip proposal that is not a canonical swap changes the active-site counts by exactly plus or minus one row of the flip table whose result stays within bounds, touches only active sites, each at most once, and only assigns allowed codes.", "quantifier": "all sublattice layouts, flip tables conserving sites per sublattice, occupancies, random choices", "why_tests_cant": "All choices of sites without replacement, all tables and occupancies.", "anchors": ["smol/moca/kernel/mcusher.py: TableFlip.propose_step", "smol/utils/math.py: flip_weights_mask, choose_section_from_partition"]}
{"id": "C10", "title": "Table flip a-priori factor is the log ratio of proposal probabilities", "statement": "For every proposable table-flip step the a-priori factor equals the logarithm of the probability of proposing the reverse move from the new occupancy over the probability of proposing the move, so Metropolis with this factor satisfies detailed balance.", "quantifier": "all occupancies, flip tables without repeated or opposite rows, weights and feasible steps", "why_tests_cant": "Requires a counting argument over all site selections.", "anchors": ["smol/moca/kernel/mcusher.py: TableFlip.compute_log_priori_factor, TableFlip._get_flip_id"]}
{"id": "C11", "title": "Metropolis acceptance satisfies detailed balance", "statement": "The acceptance test accepts with probability min(1, exp(-beta*dH + log factor + dbias)), downhill moves are always accepted, and with proposals whose reverse/forward probability ratio is the a-priori factor the chain satisfies detailed balance with respect to exp(-beta H + bias).", "quantifier": "all energies, temperatures, biases and factors; all uniform draws in (0,1)", "why_tests_cant": "Statement about real probabilities for all energy landscapes.", "anchors": ["smol/moca/kernel/metropolis.py: Metropolis._accept_step", "smol/moca/kernel/random.py: UniformlyRandom._accept_step"]}
{"id": "C12", "title": "A kernel step either applies the whole proposal or changes nothing", "statement": "After single_step the recorded occupancy is the input with the complete proposal applied in order if the step was accepted and is the unchanged input otherwise; the recorded change values are those of the proposal computed at the input occupancy.", "quantifier": "all occupancies, proposals and acceptance outcomes", "why_tests_cant": "All proposals of any length.", "anchors": ["smol/moca/kernel/base.py: StandardSingleStepMixin.single_step, MCKernel._compute_step_trace, MCKernel._do_accept_step"]}
{"id": "C13", "title": "Recorded features, enthalpy and bias match the recorded occupancy along every run", "statement": "At every sample of every run the recorded features, enthalpy and bias equal the values computed from scratch for the recorded occupancy, provided the ensemble's and bias' change functions are exact for the proposed steps.", "quantifier": "all kernels with exact change functions, all initial occupancies, run lengths, thinning values and random streams", "why_tests_cant": "Accumulated sums over unbounded runs.", "anchors": ["smol/moca/sampler/sampler.py: Sampler.sample, Sampler.run", "smol/moca/kernel/base.py: MCKernel.compute_initial_trace"]}
{"id": "C14", "title": "Multi-cell kernel caches stay synchronised", "statement": "Along every multi-cell run, the cached feature vector of each cell equals the features of the occupancy stored for that cell, the reported change in features is the difference between the target and the current cell features, and the current cell changes only on accepted hops.", "quantifier": "all hop periods, cells, random streams, acceptance outcomes and run lengths", "why_tests_cant": "Long interleavings of in-cell steps and hops.", "anchors": ["smol/moca/kernel/base.py: MulticellKernel.single_step, _compute_step_trace, _do_accept_step, set_aux_state"]}
{"id": "C15", "title": "Temperature and inverse temperature never disagree", "statement": "After any sequence of temperature and Boltzmann-constant assignments, beta = 1/(kB*T) for the latest values; assigning a temperature to a multi-cell kernel makes every cell use it; annealing runs every walker at each temperature of the schedule in order, each run starting from the last state of the previous one, and rejects schedules that end hotter than they start.", "quantifier": "all histories of temperature/kB assignments, any number of cells, any annealing schedule", "why_tests_cant": "Histories of unbounded length.", "anchors": ["smol/moca/kernel/base.py: ThermalKernelMixin", "smol/moca/kernel/metropolis.py: MulticellMetropolis.temperature", "smol/moca/sampler/sampler.py: Sampler.anneal"]}
{"id": "C16", "title": "Wang-Landau never leaves its enthalpy window", "statement": "Once the enthalpy is inside the window it stays inside for the whole run, every accepted state falls in one of the histogram bins, and the tracked enthalpy is the enthalpy of the tracked occupancy.", "quantifier": "all windows, bin sizes, runs and random streams", "why_tests_cant": "Unbounded runs.", "anchors": ["smol/moca/kernel/wanglandau.py: _accept_step, _do_accept_step, _get_bin_id"]}
{"id": "C17", "title": "Wang-Landau counters are mutually consistent", "statement": "Along every run: histogram <= occurrences pointwise, the entropy of a bin is zero iff it was never updated, the set of visited bins never shrinks, entropy never decreases, the total occurrences equal the number of in-window steps that hit an update period, and the modification factor only changes when the flatness test passes, at which point the histogram is reset.", "quantifier": "all runs, update/check periods, flatness thresholds and positive modification schedules", "why_tests_cant": "Unbounded histories.", "anchors": ["smol/moca/kernel/wanglandau.py: WangLandau._do_post_step"]}
{"id": "C18", "title": "Wang-Landau mean features are averages of the recorded visits", "statement": "The mean feature vector reported for a bin is the arithmetic mean of the feature vectors of the states visited in that bin.", "quantifier": "all runs and update periods", "why_tests_cant": "Unbounded histories; only fails for update periods larger than one.", "anchors": ["smol/moca/kernel/wanglandau.py: WangLandau._do_post_step"]}
{"id": "C19", "title": "Bias changes equal differences of biases", "statement": "For every bias the change reported for a step equals the bias of the occupancy after the step minus the bias before it, for every step including ones touching a site repeatedly.", "quantifier": "all bias tables, occupancies and steps", "why_tests_cant": "All steps and tables.", "anchors": ["smol/moca/kernel/bias.py: MCBias.compute_bias_change, FugacityBias.compute_bias_change, SquareChargeBias, SquareHyperplaneBias"]}
{"id": "C20", "title": "Chemical potential assignments keep natural parameters consistent", "statement": "After any sequence of setting, resetting and deleting chemical potentials the natural parameters are the energy coefficients followed by -1 exactly when chemical potentials are set, and feature vectors have matching length.", "quantifier": "all histories of chemical potential assignments and deletions, valid or rejected", "why_tests_cant": "Histories of unbounded length.", "anchors": ["smol/moca/ensemble.py: ChemicalPotentialManager, Ensemble.natural_parameters"]}
{"id": "C21", "title": "Ensemble feature changes equal differences of feature vectors", "statement": "For every step the change in feature vector reported by the ensemble (energy features and chemical work) equals the feature vector after the step minus the one before it.", "quantifier": "all processors with exact changes, chemical potential tables, occupancies and steps", "why_tests_cant": "All steps, in particular steps touching a site more than once.", "anchors": ["smol/moca/ensemble.py: Ensemble.compute_feature_vector, compute_feature_vector_change"]}
{"id": "C22", "title": "Every sample of an in-memory run is stored once and in order", "statement": "After any sequence of runs without streaming the container holds, in order, exactly nsteps//thin_by samples per run, each the state after thin_by kernel steps, and the counters equal the number of samples and steps.", "quantifier": "all sequences of runs, thinning values and step counts", "why_tests_cant": "Histories of unbounded length.", "anchors": ["smol/moca/sampler/sampler.py: Sampler.run, Sampler.sample", "smol/moca/sampler/container.py: SampleContainer.allocate, save_sampled_trace"]}
{"id": "C23", "title": "Streaming to disk stores the same samples as an in-memory run", "statement": "A streamed run writes to the backend exactly the samples the same run without streaming would keep in memory.", "quantifier": "all run lengths, thinning values and chunk sizes", "why_tests_cant": "Only fails for sample counts not divisible by the chunk, tests use divisible ones.", "anchors": ["smol/moca/sampler/sampler.py: Sampler.run", "smol/moca/sampler/container.py: flush_to_backend, get_backend"]}
{"id": "C24", "title": "Discard and thin select the documented samples", "statement": "get with discard d and thin t returns samples d+t-1, d+2t-1, ...; there are (n-d)//t of them, every one is a stored sample, flat output lists the walkers of every sample in sample order, efficiencies lie between zero and one, and minimum queries return an attained minimum and an occupancy that attains it.", "quantifier": "all sample counts, walker counts, discard and thin values", "why_tests_cant": "All sizes.", "anchors": ["smol/moca/sampler/container.py: get_trace_value, get_energies, get_minimum_enthalpy, _flatten, sampling_efficiency"]}
{"id": "C25", "title": "Saving and loading a sample container preserves its samples", "statement": "Appending a container to a file any number of times and loading it back yields the concatenation of all samples with the summed counters; dictionary round trips preserve samples and counts.", "quantifier": "all histories of sampling, saving, clearing and loading", "why_tests_cant": "Histories of unbounded length.", "anchors": ["smol/moca/sampler/container.py: to_hdf5, from_hdf5, as_dict, from_dict, flush_to_backend"]}
{"id": "C26", "title": "Local correlation changes equal differences of full correlations", "statement": "For any list of flips of sites that belong to at least one cluster, including repeated sites, the change in the feature vector computed from the local clusters equals the feature vector after minus before; every entry of the feature vector is the system size times the average, over the clusters of its orbit, of the tensor entry selected by the species codes.", "quantifier": "all orbits, cluster tables, correlation tensors, occupancies and flip lists", "why_tests_cant": "Requires a double counting argument over all cluster tables.", "anchors": ["smol/utils/cluster/evaluator.pyx: correlations_from_occupancy, delta_correlations_from_occupancies", "smol/moca/processor/expansion.py: ClusterExpansionProcessor.compute_feature_vector_change"]}
{"id": "C27", "title": "Local interaction changes equal differences of full interactions", "statement": "For any list of flips of sites that belong to at least one cluster, including repeated sites, the change in the cluster interaction vector of the decomposition processor equals the interaction vector after minus before.", "quantifier": "all orbits, cluster tables, interaction tensors, occupancies and flip lists", "why_tests_cant": "Double counting argument.", "anchors": ["smol/utils/cluster/evaluator.pyx: interactions_from_occupancy, delta_interactions_from_occupancies", "smol/moca/processor/expansion.py: ClusterDecompositionProcessor"]}
{"id": "C28", "title": "Ewald energy changes equal differences of Ewald energies", "statement": "For every list of flips the accumulated single flip Ewald changes equal the Ewald energy after minus before, when the Ewald matrix is symmetric.", "quantifier": "all symmetric matrices, index tables, occupancies and flip lists", "why_tests_cant": "All matrices and occupancies.", "anchors": ["smol/utils/cluster/ewald.pyx: delta_ewald_single_flip", "smol/moca/processor/ewald.py: compute_feature_vector, compute_feature_vector_change", "smol/cofe/extern/ewald.py: get_ewald_occu"]}
{"id": "C29", "title": "Expansion and decomposition processors compute the same property", "statement": "For every occupancy the property computed from correlations and coefficients equals the property computed from interactions and multiplicities, and likewise for changes.", "quantifier": "all coefficients, orbits, tensors and occupancies", "why_tests_cant": "All coefficient vectors and occupancies.", "anchors": ["smol/cofe/expansion.py: ClusterExpansion.cluster_interaction_tensors, eci", "smol/moca/processor/expansion.py"]}
{"id": "C30", "title": "Composite processors add their parts", "statement": "The property and property change of a composite processor are the sums of those of its parts and equal coefficients dot features, for any number of parts.", "quantifier": "all lists of processors", "why_tests_cant": "Any number of parts, feature lengths differ.", "anchors": ["smol/moca/processor/composite.py: add_processor, compute_property, compute_feature_vector"]}
{"id": "C31", "title": "Occupancy encoding round trips", "statement": "Decoding an encoded occupancy and encoding a decoded one are the identity on allowed occupancies; species not allowed on a site are rejected.", "quantifier": "all allowed species lists without repetitions and all occupancies", "why_tests_cant": "All site spaces.", "anchors": ["smol/moca/processor/base.py: encode_occupancy, decode_occupancy"]}
{"id": "C32", "title": "Correlation evaluation is independent of the thread schedule", "statement": "The vectors computed by the parallel loops over orbits (correlations, interactions, their changes, distances) are the same for every interleaving of the per-orbit work, namely the sequential result.", "quantifier": "all schedules, orbits and occupancies", "why_tests_cant": "Schedules cannot be enumerated by tests.", "anchors": ["smol/utils/cluster/evaluator.pyx: prange loops"]}
{"id": "C33", "title": "Correlation function ids stay contiguous under any removal history", "statement": "After any sequence of orbit and correlation-function removals orbit ids are 1,2,... in size order, bit ids are cumulative, every function id belongs to exactly one orbit and the remaining functions keep their relative order.", "quantifier": "all subspaces and removal histories", "why_tests_cant": "Histories of unbounded length.", "anchors": ["smol/cofe/space/clusterspace.py: _assign_orbit_ids, remove_orbits, remove_corr_functions, function_orbit_ids", "smol/cofe/space/orbit.py: assign_ids, remove_bit_combos_by_inds"]}
{"id": "C34", "title": "Flat tensor indexing is a bijection", "statement": "The flat index computed from the stride vector and the site codes addresses exactly the entry of the multi-dimensional correlation tensor, stays within the flattened length and is injective on allowed codes.", "quantifier": "all tensor shapes and codes", "why_tests_cant": "All shapes.", "anchors": ["smol/cofe/space/orbit.py: flat_tensor_indices, flat_correlation_tensors", "smol/utils/cluster/evaluator.pyx"]}
{"id": "C35", "title": "Symmetrised bit combinations partition all decorations", "statement": "The groups of site-function combinations of an orbit are pairwise disjoint, cover all combinations, and two combinations share a group iff a cluster permutation maps one to the other.", "quantifier": "all permutation groups and bit lists", "why_tests_cant": "All symmetry groups.", "anchors": ["smol/cofe/space/orbit.py: bit_combos"]}
{"id": "C36", "title": "Potts concentrations of an orbit add to one", "statement": "For every occupancy the correlation functions of all decorations of an orbit in the indicator representation are non-negative and add up to one.", "quantifier": "all orbits, occupancies, cluster tables", "why_tests_cant": "All occupancies.", "anchors": ["smol/cofe/space/clusterspace.py: PottsSubspace", "smol/cofe/space/orbit.py: correlation_tensors"]}
{"id": "C37", "title": "Aliased orbit groups are exactly the classes of identical cluster sets", "statement": "The groups returned are disjoint, have at least two members, and two different orbits are grouped iff they map to the same set of site sets.", "quantifier": "all lists of orbit mappings", "why_tests_cant": "All supercells.", "anchors": ["smol/cofe/space/clusterspace.py: get_aliased_orbits"]}
{"id": "C38", "title": "Inverting and completing orbit hierarchies", "statement": "Inverting a mapping relates i to j iff j was mapped to i without repetitions; completing it yields exactly the transitive closure for acyclic mappings.", "quantifier": "all mapping tables", "why_tests_cant": "All tables, all depths.", "anchors": ["smol/cofe/space/clusterspace.py: invert_mapping, get_complete_mapping"]}
{"id": "C39", "title": "Hermite normal forms are enumerated exactly once", "statement": "For a positive determinant D exactly the lower triangular integer matrices with positive diagonal product D and each below-diagonal entry reduced by the documented bound are yielded, each once; every integer sublattice of index D is generated by exactly one of them.", "quantifier": "all positive determinants", "why_tests_cant": "All determinants.", "anchors": ["smol/utils/math.py: yield_hermite_normal_forms", "smol/capp/generate/enumerate.py"]}
{"id": "C40", "title": "Extended Euclid returns Bezout coefficients", "statement": "gcdex(a,b) terminates for all integers and returns x,y,g with a*x+b*y=g and |g| the greatest common divisor.", "quantifier": "all integers including negatives and zero", "why_tests_cant": "All integers.", "anchors": ["smol/utils/math.py: gcdex"]}
{"id": "C41", "title": "Smith decomposition is exact", "statement": "compute_snf terminates and returns s,m,t with m = s*a*t, s and t unimodular, m diagonal with each diagonal entry dividing the next.", "quantifier": "all integer matrices", "why_tests_cant": "All matrices; termination.", "anchors": ["smol/utils/math.py: compute_snf"]}
{"id": "C42", "title": "Diophantine solver returns the whole solution lattice", "statement": "Whenever it returns, the base vector solves A n = b and the solutions are exactly the base vector plus integer combinations of the returned vectors; it raises only if there is no integer solution.", "quantifier": "all integer systems", "why_tests_cant": "All systems, in particular rank deficient ones.", "anchors": ["smol/utils/math.py: solve_diophantines"]}
{"id": "C43", "title": "One dimensional and natural solutions are enumerated completely", "statement": "get_one_dim_solutions returns exactly the integers x with n0 + v x >= 0 (every step-th from the smallest); get_natural_solutions returns exactly the integer x with n0 + sum x_i v_i >= 0, each once.", "quantifier": "all integer vectors with bounded solution set", "why_tests_cant": "All systems.", "anchors": ["smol/utils/math.py: get_one_dim_solutions, get_natural_solutions"]}
{"id": "C44", "title": "Flip feasibility masks are exact", "statement": "The mask marks direction 2i (2i+1) feasible iff n plus (minus) row i stays between 0 and the per-species maximum.", "quantifier": "all tables, counts and bounds", "why_tests_cant": "All tables.", "anchors": ["smol/utils/math.py: flip_weights_mask, flip_size, connectivity"]}
{"id": "C45", "title": "Composition formats translate without loss", "statement": "Translating a composition between counts, lattice coordinates and per-sublattice dictionaries and back is the identity on feasible compositions, and infeasible ones are rejected.", "quantifier": "all composition spaces with a lattice basis, all feasible compositions and supercell sizes", "why_tests_cant": "All spaces and sizes.", "anchors": ["smol/moca/composition/space.py: translate_format, _convert_to_counts, _convert_counts_to"]}
{"id": "C46", "title": "Constraint strings mean what they say", "statement": "A parsed linear constraint holds for a count vector iff the written inequality or equality holds for it.", "quantifier": "all parsed sides, all count vectors", "why_tests_cant": "All constraints and count vectors.", "anchors": ["smol/moca/composition/constraints.py: convert_constraint_string, CompositionConstraintsManager"]}
{"id": "C47", "title": "Duplicate groups of feature vectors are the equality classes", "statement": "Groups of duplicate correlation vectors (optionally only of clusters within given cutoffs, optionally with external terms, optionally rounded to a number of decimals) are disjoint, have at least two members and contain exactly the rows that agree; merging matching structures returns the connected components of each such group.", "quantifier": "all feature matrices, cutoffs, numbers of decimals and structure matchers", "why_tests_cant": "All matrices.", "anchors": ["smol/cofe/wrangling/wrangler.py: get_duplicate_corr_indices, get_matching_corr_duplicate_indices"]}
{"id": "C48", "title": "Wrangler entries, properties, weights and index sets stay aligned", "statement": "After any sequence of adding and removing entries, properties, weights and data index sets, property and weight vectors have one value per entry, the one given for it, and stored index sets refer to existing entries.", "quantifier": "all histories of wrangler operations", "why_tests_cant": "Histories of unbounded length.", "anchors": ["smol/cofe/wrangling/wrangler.py: add_entry, append_entries, add_properties, add_weights, add_data_indices, remove_entry, remove_properties, remove_all_data, get_property_vector, get_weights"]}
{"id": "C49", "title": "Ewald structure selection keeps low energy structures", "statement": "The structures kept by max_ewald_energy_indices are exactly those whose Ewald energy is below the threshold above the minimum of their composition; every composition keeps its minimum; unique_corr_vector_indices keeps exactly one structure per equal correlation (and property) class.", "quantifier": "all data sets", "why_tests_cant": "All data sets.", "anchors": ["smol/cofe/wrangling/tools.py: unique_corr_vector_indices, max_ewald_energy_indices, _energies_above_composition"]}
{"id": "C50", "title": "Ground-state variables round trip with occupancies", "statement": "Every feasible 0/1 assignment decodes to an allowed occupancy and encoding it gives back the assignment; every allowed occupancy encodes to a feasible assignment and decodes back.", "quantifier": "all sublattice layouts with restricted or split sublattices, all assignments and occupancies", "why_tests_cant": "Exponentially many assignments.", "anchors": ["smol/capp/generate/groundstate/upper_bound/variables.py", "smol/capp/generate/groundstate/upper_bound/constraints.py: get_normalization_constraints"]}
{"id": "C51", "title": "Linearised objective is exact", "statement": "For every 0/1 assignment there is exactly one assignment of the auxiliary variables satisfying the added constraints, and the linear objective then equals the sum of all product terms (with terms under the cutoff dropped).", "quantifier": "all term lists and assignments", "why_tests_cant": "Exponentially many assignments.", "anchors": ["smol/capp/generate/groundstate/upper_bound/terms.py: get_expression_and_auxiliary_from_terms, get_auxiliary_variable_values"]}
{"id": "C52", "title": "Ground-state objective equals the ensemble energy", "statement": "For every feasible assignment the objective equals the enthalpy of the decoded occupancy: cluster terms, Ewald terms and chemical potential terms each equal the corresponding processor value.", "quantifier": "all cluster spaces, matrices, occupancies", "why_tests_cant": "Exponentially many assignments.", "anchors": ["smol/capp/generate/groundstate/upper_bound/objectives.py"]}
{"id": "C53", "title": "Special structure search keeps the best candidates", "statement": "Along a generation run the list of saved candidates is strictly improving, its last element is the best score seen, and never exceeds the requested number.", "quantifier": "all score sequences and list sizes", "why_tests_cant": "Unbounded runs.", "anchors": ["smol/capp/generate/special/sqs.py: generate, get_best_sqs"]}
{"id": "C54", "title": "Convergence burn-in search", "statement": "The number of discarded samples returned is 0 or the first candidate at which the remaining samples are judged converged.", "quantifier": "all series", "why_tests_cant": "All series.", "anchors": ["smol/moca/analysis/convergence.py"]}
{"id": "C55", "title": "Correlation distances are differences of distances to the target", "statement": "The distance-vector change for a step equals the distance vector after minus before, and the exact-match diameter is the largest diameter up to which all correlations match.", "quantifier": "all targets, occupancies and steps", "why_tests_cant": "All targets.", "anchors": ["smol/moca/processor/distance.py", "smol/utils/cluster/evaluator.pyx: corr_distances_from_occupancies"]}
{"id": "C56", "title": "Pruning keeps predictions of the kept terms", "statement": "After pruning, coefficients and correlation functions are aligned: prediction equals the sum over kept terms of the original coefficients.", "quantifier": "all coefficient vectors and thresholds", "why_tests_cant": "All thresholds.", "anchors": ["smol/cofe/expansion.py: ClusterExpansion.prune"]}
{"id": "C57", "title": "Cluster identity is invariant under lattice translations", "statement": "Clusters are normalised so that the centroid lies in the unit cell, translating a cluster by a lattice vector and reordering its sites yields an equal cluster; equality is reflexive, and for clusters whose sites are further apart than twice the site tolerance it is symmetric and holds exactly when a lattice vector moves the sites of one onto those of the other within the tolerance. Copies and clusters rebuilt from their sites are equal to the original.", "quantifier": "all clusters and translations", "why_tests_cant": "All clusters.", "anchors": ["smol/cofe/space/cluster.py: Cluster.__init__, __eq__"]}
{"id": "C58", "title": "Site spaces that differ are not equal", "statement": "Two site spaces compare equal iff they have the same species in the same order with the same measure.", "quantifier": "all pairs of site spaces", "why_tests_cant": "Fails only when one is a prefix of the other.", "anchors": ["smol/cofe/space/domain.py: SiteSpace.__eq__"]}
{"id": "C59", "title": "Attributes and thread numbers set on many objects", "statement": "Setting an attribute on many objects at once sets it on all of them and reading returns the per-object values.", "quantifier": "all object lists and values", "why_tests_cant": "All lists.", "anchors": ["smol/utils/setmany.py: SetMany", "smol/utils/cluster/numthreads.py: SetNumThreads", "smol/utils/_openmp_helpers.pyx: _openmp_effective_numthreads", "smol/moca/processor/expansion.py: num_threads"]}
{"id": "C60", "title": "Class lookup by name is case/format insensitive and idempotent", "statement": "Normalising a class name given with spaces, dashes, underscores or lower case gives the CamelCase name, and normalising again changes nothing.", "quantifier": "all strings", "why_tests_cant": "All strings.", "anchors": ["smol/utils/class_utils.py: class_name_from_str"]}
{"id": "C61", "title": "Default sublattices partition the supercell", "statement": "The sublattices a processor provides contain every site of the supercell exactly once, each with the species allowed on its sites, and every encoded occupancy is valid on them.", "quantifier": "all allowed-species lists and unique site spaces", "why_tests_cant": "must hold for every structure and site measure; overlapping sublattices only appear for site spaces sharing species with different measures", "anchors": ["smol/moca/processor/base.py: Processor.get_sublattices", "smol/cofe/space/domain.py: SiteSpace"]}
{"id": "C62", "title": "Site spaces are ordered with the vacancy last and total one", "statement": "A site space lists its species in strictly increasing order with the vacancy as last species, and its measure adds up to one.", "quantifier": "all compositions accepted by the constructor", "why_tests_cant": "depends on every composition total and on the species order", "anchors": ["smol/cofe/space/domain.py: SiteSpace.__init__", "smol/cofe/space/domain.py: get_site_spaces"]}
{"id": "C63", "title": "Proposals with zero a-priori factor are symmetric", "statement": "A step proposer whose a-priori log factor is zero proposes going from one occupancy to another with the same probability as going back. This holds for flips and swaps, for multi-steps and composites of flips in any nesting, for those of swaps, and for composites of all of these.", "quantifier": "all proposers built from flips, swaps, multi-steps and composites in which no multi-step has both flips and swaps, all probabilities and lengths, all occupancies and pairs of occupancies", "why_tests_cant": "it compares exact probabilities of every pair of occupancies; sampled frequencies cannot show equality", "anchors": ["smol/moca/kernel/mcusher.py: MCUsher.compute_log_priori_factor", "smol/moca/kernel/mcusher.py: MultiStep.propose_step", "smol/moca/kernel/mcusher.py: Composite.propose_step"]}
{"id": "C64", "title": "Documented selection probabilities are honoured", "statement": "A flip changes each sublattice with active sites with the probability given for it, and with equal probabilities if none are given; a swap as well, on sublattices that carry two different species. Probabilities are accepted, at construction and later, exactly if there is one per active sublattice and they add up to one. Step-length probabilities given as a list that matches the step lengths and adds up to one are accepted by the multi-step proposer and used for choosing the length; without them all lengths are equally likely.", "quantifier": "all layouts and occupancies, all lists of sublattice probabilities, all lists of step lengths and probabilities", "why_tests_cant": "must hold for every accepted list of probabilities", "anchors": ["smol/moca/kernel/mcusher.py: MultiStep.__init__", "smol/moca/kernel/mcusher.py: MultiStep.propose_step", "smol/moca/kernel/mcusher.py: MCUsher.__init__, sublattice_probabilities, get_random_sublattice"]}
{"id": "C65", "title": "Reported species counts of samples match the sampled occupancies", "statement": "For every sampled occupancy that is valid on a sublattice, the counts reported for that sublattice list for every species, in the order of the site space, the number of sites of the sublattice that carry it, and they add up to the number of its sites.", "quantifier": "all sublattices, all valid occupancies, species absent or present", "why_tests_cant": "tests check a handful of sampled occupancies; the special handling of missing species depends on how many distinct codes occur", "anchors": ["smol/moca/sampler/container.py: SampleContainer.get_sublattice_species_counts", "smol/moca/sampler/container.py: SampleContainer.get_species_counts"]}
{"id": "C66", "title": "Chemical work follows the sublattices that are active now", "statement": "After chemical potentials are set, the chemical work of an occupancy is the sum of the potentials of the species on the sublattices that are active, also after sites have been frozen or unfrozen.", "quantifier": "all ensembles, potentials, occupancies and histories of freezing and unfreezing sites", "why_tests_cant": "the table is built once when potentials are assigned, tests do not freeze a whole sublattice before or after", "anchors": ["smol/moca/ensemble.py: ChemicalPotentialManager._build_table, Ensemble.restrict_sites, Ensemble.reset_restricted_sites"]}
{"id": "C67", "title": "Wang-Landau steps leave the inverse density of states distribution invariant", "statement": "At fixed entropies the Wang-Landau acceptance rule satisfies detailed balance, on the states inside the enthalpy window, with respect to weights exp(-S(bin of the enthalpy)), for every proposal whose a-priori factor is the log ratio of proposal probabilities.", "quantifier": "all windows, entropy tables, ensembles with exact changes, proposals and pairs of states in the window", "why_tests_cant": "a statement about probabilities of all pairs of states", "anchors": ["smol/moca/kernel/wanglandau.py: WangLandau._accept_step"]}
{"id": "C68", "title": "Recorded bias in multi-cell runs", "statement": "In a multi-cell run with biased cells the bias recorded in the trace is the bias of the current occupancy in the current cell, also after hops between cells.", "quantifier": "all cells, biases, hop periods and sequences of steps", "why_tests_cant": "needs every interleaving of in-cell steps and hops", "anchors": ["smol/moca/kernel/base.py: MulticellKernel._compute_step_trace", "smol/moca/kernel/base.py: MulticellKernel.single_step", "smol/moca/sampler/sampler.py: Sampler.sample"]}
{"id": "C69", "title": "Documented cell and hop-period probabilities are honoured", "statement": "A multi-cell kernel accepts cell probabilities and hop-period probabilities that match in number and add up to one, and uses them to choose the target cell and the hop period; by default all cells are equally likely.", "quantifier": "all numbers of cells, hop periods and probability lists", "why_tests_cant": "must hold for every accepted list of probabilities", "anchors": ["smol/moca/kernel/base.py: MulticellKernel.__init__", "smol/moca/kernel/base.py: MulticellKernel.single_step"]}
{"id": "C70", "title": "Flipping a site that takes part in no cluster", "statement": "A site whose species enter no cluster function can be flipped: the expansion and decomposition processors report a zero change of the feature vector for such a flip, in agreement with the full feature vectors.", "quantifier": "all processors, occupancies and flip lists touching a site outside every cluster", "why_tests_cant": "test cluster spaces always include point clusters for every active site, and a site outside all clusters only appears after removing orbits or choosing cutoffs in particular lattices.", "anchors": ["smol/moca/processor/expansion.py: ClusterExpansionProcessor.__init__, compute_feature_vector_change", "smol/moca/processor/expansion.py: ClusterDecompositionProcessor.compute_feature_vector_change"]}
{"id": "C71", "title": "Cached cluster tables belong to the current orbits", "statement": "After any sequence of removals, basis changes and table requests, the cluster tables returned for a supercell matrix are the tables of the current orbits, as if computed afresh, provided the table of an orbit does not depend on the order of the rows of the matrix.", "quantifier": "all subspaces, histories of operations and supercell matrices", "why_tests_cant": "a stale cache only shows after particular histories of requests and removals", "anchors": ["smol/cofe/space/clusterspace.py: get_orbit_indices, remove_orbits, remove_corr_functions"]}
{"id": "C72", "title": "Saved subspaces are restored with the same functions", "statement": "Saving a cluster subspace (or Potts subspace) after any history of changes to a dictionary and loading it gives a subspace with the same orbits, function ids, numbers of functions, evaluator data and cached tables.", "quantifier": "all subspaces and histories", "why_tests_cant": "round trip tests use a few freshly created subspaces, and compare with an equality that ignores functions", "anchors": ["smol/cofe/space/clusterspace.py: ClusterSubspace.as_dict, from_dict, PottsSubspace.from_dict", "smol/cofe/space/orbit.py: as_dict, from_dict"]}
{"id": "C73", "title": "Serializing a distance processor keeps its property", "statement": "A distance processor written with as_dict and read back with from_dict has the same features and property for every occupancy.", "quantifier": "all distance processors (targets, weights, tolerances) and occupancies", "why_tests_cant": "All weights and tolerances.", "anchors": ["smol/moca/processor/distance.py: DistanceProcessor.as_dict, from_dict"]}
{"id": "C74", "title": "Constant features", "statement": "get_constant_features returns exactly the columns other than the first one that have the same value for all structures.", "quantifier": "all feature matrices", "why_tests_cant": "All matrices.", "anchors": ["smol/cofe/wrangling/wrangler.py: get_constant_features"]}
{"id": "C75", "title": "Boltzmann weights of training structures", "statement": "Weights from energies above composition lie in (0,1], are 1 exactly for structures of lowest energy per site at their composition, order structures of one composition by energy, and their ratio is the Boltzmann factor of the energy difference.", "quantifier": "all energies, sizes, compositions and positive temperatures", "why_tests_cant": "All data sets and temperatures.", "anchors": ["smol/cofe/wrangling/tools.py: weights_energy_above_composition, _energies_above_composition"]}
{"id": "C76", "title": "Composition constraints of the ground-state problem", "statement": "For every feasible assignment, the variables and fixed sites grouped for a species of a sublattice add up to the number of sites with it in the decoded occupancy. The constraints of a fixed composition hold exactly when the decoded occupancy has that composition, and those of a composition space exactly when its numbers satisfy all equalities and inequalities; building them is refused only when no allowed occupancy does. By default the composition of the initial occupancy is used and that occupancy is feasible.", "quantifier": "all sublattices (restricted, split), initial occupancies, compositions and rows of constraints", "why_tests_cant": "Exponentially many assignments and all rows.", "anchors": ["smol/capp/generate/groundstate/upper_bound/indices.py: get_variable_indices_for_each_composition_component", "smol/capp/generate/groundstate/upper_bound/constraints.py", "smol/capp/generate/groundstate/upper_bound/solver.py: PeriodicGroundStateSolver.__init__"]}
{"id": "C77", "title": "The ground-state solver reports the solution it found", "statement": "After solve, the reported occupancy is the one decoded from the values of the last solution (up to the precision of the optimiser), and the reported energy belongs to it.", "quantifier": "all problems, histories of solve and reset, and values within the precision of the optimiser", "why_tests_cant": "All histories and roundings.", "anchors": ["smol/capp/generate/groundstate/upper_bound/solver.py: solve, reset, ground_state_occupancy"]}
{"id": "C78", "title": "Numbers become the closest small fractions and vectors are integerised by the least multiplier", "statement": "rationalize_number returns, in lowest terms, a fraction with denominator at most max_denominator that is as close as any such fraction, and raises just when none is within the tolerance. integerize_vector and integerize_multiple multiply by a positive common multiple of such denominators; when the components already have small denominators the result is exact and the multiplier is the least that makes every component an integer, and otherwise each component times the multiplier is within multiplier times tolerance of the returned integer.", "quantifier": "all numbers, vectors and matrices, all maximal denominators and tolerances", "why_tests_cant": "All numbers; being closest is a statement about every other fraction.", "anchors": ["smol/utils/math.py: rationalize_number, integerize_vector, integerize_multiple"]}
{"id": "C79", "title": "Every site basis is a complete basis of the functions of the species", "statement": "For every available flavour of site basis (indicator, sinusoid, polynomial, chebyshev, legendre) and every site space with at least two species, the constant function together with the rows of function_array is a basis of all real functions on the species of the site: every function is a combination of them with uniquely determined coefficients.", "quantifier": "all flavours of basis, all numbers of species >= 2, all real functions on the species", "why_tests_cant": "Completeness is needed for every number of species and every flavour; tests look at two to five species and compare values, not spans.", "anchors": ["smol/cofe/space/basis.py: StandardBasis, IndicatorIterator, SinusoidIterator, NumpyPolyIterator, PolynomialIterator, ChebyshevIterator, LegendreIterator, basis_factory"]}
{"id": "C80", "title": "Orthonormalising a site basis gives orthonormal functions with the same span", "statement": "After orthonormalize() the constant function and the rows of function_array are orthonormal with respect to the measure of the site space, the k-th function lies in the span of the first k original ones, and the original functions are orthonormalization_array times the new ones, for every flavour and every measure.", "quantifier": "all flavours, all site spaces with at least two species and positive measure, all QR factorisations that the linear algebra library may return (signs are free)", "why_tests_cant": "The sign conventions of QR and the measure are free; tests use a few measures that sum to one and one library.", "anchors": ["smol/cofe/space/basis.py: StandardBasis.orthonormalize, orthonormalization_array, is_orthonormal"]}
{"id": "C81", "title": "Rotations of a site basis keep its geometry and the rotation array records them", "statement": "For an orthogonal site basis over a uniform measure, any sequence of rotate calls keeps the inner products of all basis functions (also with the constant function), and rotation_array is the orthogonal matrix that takes the functions before the calls to the present ones. Calls that raise change nothing.", "quantifier": "all orthogonal bases over uniform measures, all sequences of rotations with any angles and indices accepted by the method", "why_tests_cant": "Angles are real and sequences arbitrary; tests rotate once by one angle with positive indices.", "anchors": ["smol/cofe/space/basis.py: StandardBasis.rotate, rotation_array"]}
{"id": "C82", "title": "Orthogonality verdicts are right, and right for the built-in bases", "statement": "is_orthogonal and is_orthonormal are true for exactly orthogonal and orthonormal bases and false when an inner product differs from the required value by more than the tolerance; over the uniform measure the sinusoid basis is orthogonal for every number of species and orthonormal only for two species, and the indicator basis with its constant is never orthogonal.", "quantifier": "all function arrays and measures; all numbers of species >= 2", "why_tests_cant": "Trigonometric sums vanish for every number of species by an argument, not by examples.", "anchors": ["smol/cofe/space/basis.py: DiscreteBasis.is_orthogonal, is_orthonormal, SinusoidIterator, IndicatorIterator, sinusoid_factory"]}
{"id": "C83", "title": "A site basis survives its dictionary", "statement": "Reading a site basis from its dictionary gives a basis with the same site space, flavour, function array, orthonormalisation array and rotation array, whatever was done to it before.", "quantifier": "all flavours, all site spaces, all histories of orthonormalisations and rotations", "why_tests_cant": "Histories and measures are unbounded; tests compare function arrays of fresh bases.", "anchors": ["smol/cofe/space/basis.py: StandardBasis.as_dict, from_dict, DiscreteBasis.from_dict"]}
{"id": "C84", "title": "Rotating a site basis of a cluster subspace rotates every equivalent basis exactly once", "statement": "rotate_site_basis of a cluster subspace rotates every site basis object over the same site space exactly once, however many orbits share it, leaves all others unchanged, and raises without a change when the id is not that of a point orbit.", "quantifier": "all subspaces (any sharing of basis objects between orbits), all ids, angles and indices", "why_tests_cant": "Sharing of objects differs between constructed and loaded subspaces; tests use one structure each.", "anchors": ["smol/cofe/space/clusterspace.py: ClusterSubspace.rotate_site_basis", "smol/cofe/space/orbit.py: Orbit.site_bases, reset_bases"]}
{"id": "C85", "title": "Unconstrained random occupancies are uniform over all allowed ones", "statement": "generate_random_ordered_occupancy without composition and without charge neutrality never fails; its results are exactly the occupancies with an allowed code on every site, all equally likely; they decode to allowed species.", "quantifier": "all processors with a valid layout of sublattices (any number of sites and species)", "why_tests_cant": "Tests check a few samples; uniformity over an exponential set cannot be sampled.", "anchors": ["smol/capp/generate/random.py: generate_random_ordered_occupancy, _gen_unconstrained_ordered_occu"]}
{"id": "C86", "title": "Random neutral occupancies are neutral and reproducible", "statement": "With charge_neutral=True the result has an allowed species on every site and total charge zero. No exception but the time out is raised whatever is drawn; a neutral first occupancy is returned unchanged; a change that does not increase the absolute charge is always taken; if a neutral arrangement exists, then there are draws with which the generator returns after at most one attempt per site and one more. With a seed the result is reproducible, and a processor without choice returns its only occupancy if it is neutral.", "quantifier": "all processors with default sublattices, all oxidation states, all sequences of draws, all numbers of attempts", "why_tests_cant": "Random walks of any length; tests sample one processor.", "anchors": ["smol/capp/generate/random.py: _gen_neutral_occu"]}
{"id": "C87", "title": "Random occupancies of a composition have that composition and are uniform", "statement": "For compositions that give whole numbers of sites within the tolerance, the generator never fails; its results are exactly the occupancies with these numbers of every species on every sublattice, all equally likely. Compositions that do not fit are rejected.", "quantifier": "all layouts, all compositions (one, a list or a tuple, normalised or not, with explicit or implied vacancies), all tolerances below one half", "why_tests_cant": "Tests check counts for a few compositions; end members, incomplete compositions and uniformity are not covered.", "anchors": ["smol/capp/generate/random.py: _gen_composition_ordered_occu, _composition_compatiblity"]}
{"id": "C88", "title": "Orbits generated from cutoffs are exactly the inequivalent clusters within them", "statement": "For cutoffs that do not increase with the size, every cluster of distinct sites whose diameter is within the cutoff of its size is equivalent to exactly one generated orbit, every generated orbit is such a cluster, and the generation does not fail.", "quantifier": "all crystals and groups of symmetry operations, all lattices (metric tensors), all dictionaries of cutoffs, all clusters of any size", "why_tests_cant": "Tests count the orbits of a few cubic structures; completeness for skewed cells, where the search sphere can be too small, and dictionaries with empty sizes are not covered.", "anchors": ["smol/cofe/space/clusterspace.py: ClusterSubspace.from_cutoffs, _gen_orbits_from_cutoffs, _gen_point_orbits, _gen_multi_orbits"]}
{"id": "C89", "title": "Clusters and operations of an orbit satisfy the orbit-stabiliser relation", "statement": "For every cluster of a crystal the orbit contains each symmetrically equivalent cluster once (up to lattice translations), its operations are exactly those that map the cluster to a periodic image, the product of their numbers is the order of the group, so SymmetryError is never raised, and the site permutations are those that the operations induce and form a group; sites that they exchange have the same functions.", "quantifier": "all crystals and groups of symmetry operations, all clusters of any size", "why_tests_cant": "Tests compare counts for random operations of a few structures.", "anchors": ["smol/cofe/space/orbit.py: Orbit.clusters, cluster_symops, cluster_permutations, multiplicity, _gen_cluster_symops"]}
{"id": "C90", "title": "The cutoff of single sites excludes or is ignored, and the dictionary is not changed", "statement": "A dictionary of cutoffs in which the cutoff of single sites is the excluding value generates no single-site orbits (and is rejected with larger clusters); any other value has no effect. The dictionary of the caller is unchanged, so a second call gives the same orbits.", "quantifier": "all crystals, all dictionaries of cutoffs", "why_tests_cant": "Tests pass literal dictionaries once.", "anchors": ["smol/cofe/space/clusterspace.py: ClusterSubspace.from_cutoffs, _gen_orbits_from_cutoffs"]}
{"id": "C91", "title": "Orbit indices in a supercell list every equivalent cluster once", "statement": "For every supercell matrix, the site indices of an orbit have one row for each cluster symmetrically equivalent to the base cluster, up to supercell translations: every row names the sites of such a cluster in order, every such cluster is named by exactly one row, and no lookup of a site fails or is ambiguous. The number of rows is the multiplicity of the orbit times the number of primitive cells.", "quantifier": "all crystals and groups of symmetry operations, all invertible integer supercell matrices, all clusters of any size", "why_tests_cant": "Tests compare the indices for a few random supercells of a few structures with a reference search.", "anchors": ["smol/cofe/space/clusterspace.py: ClusterSubspace.get_orbit_indices, _gen_orbit_indices"]}
{"id": "C92", "title": "Symmetrically equivalent occupancies have the same correlations", "statement": "For every operation of the crystal that maps the supercell lattice onto itself, and every lattice translation of the prim structure, an occupancy and its image have the same correlation vector. The image exists, is an occupancy with allowed species, and the correlations of both can be computed.", "quantifier": "all crystals and groups of symmetry operations, all supercells, all orbits generated from clusters (also after removing functions), all site functions that are equal on equivalent sites, all occupancies", "why_tests_cant": "Tests apply a few random operations of a few structures in small supercells and compare within a tolerance.", "anchors": ["smol/cofe/space/clusterspace.py: ClusterSubspace.corr_from_occupancy, get_orbit_indices", "smol/cofe/space/orbit.py: Orbit.correlation_tensors, bit_combos, cluster_permutations", "smol/utils/cluster/evaluator.pyx: ClusterSpaceEvaluator.correlations_from_occupancy"]}
{"id": "C93", "title": "Optimising the basis of a composition space keeps the compositions that it generates", "statement": "The optimised basis has as many vectors as the original one, is linearly independent, consists of flips that keep all constraints, has for every size at least as many flips that move no more atoms, and generates exactly the same integer flips as the original basis.", "quantifier": "all sets of integer basis vectors of any length and number, all base solutions, all grids of compositions, all numbers of cycles, all exact rank computations; all composition spaces", "why_tests_cant": "Tests optimise the bases of a few spaces and compare with stored vectors; that no composition is lost depends on the whole lattice.", "anchors": ["smol/utils/math.py: get_optimal_basis, flip_size, connectivity", "smol/moca/composition/space.py: CompositionSpace.basis, optimize_basis"]}
{"id": "C94", "title": "An ergodic flip table connects all compositions of the minimal supercell", "statement": "With table_ergodic the flip table contains the basis, every flip that is added leads from one composition of the grid to another, and from every composition of the grid every other one can be reached by flips of the table without leaving the grid.", "quantifier": "all bases of any length and number of vectors, all grids of compositions, all exact nearest neighbour queries and numbers of neighbours; all composition spaces with inequality constraints", "why_tests_cant": "Tests check that every composition of a few grids has a neighbour, not that the graph of flips is connected.", "anchors": ["smol/utils/math.py: get_ergodic_vectors, is_connected", "smol/moca/composition/space.py: CompositionSpace.flip_table, table_ergodic, min_supercell_grid"]}
{"id": "C95", "title": "Composition grids list exactly the compositions of a supercell", "statement": "get_composition_grid(size) returns each integer composition of a supercell of that size that satisfies all equality and inequality constraints exactly once, in coordinates; with a step it returns a part of them; every size that has compositions has a grid for every step; and what a call returns does not depend on the calls before it.", "quantifier": "all composition spaces, all sizes and steps, all histories of earlier calls, all bases that generate the flips of the space, all linear programs that return the extremes", "why_tests_cant": "Tests enumerate a few spaces at a few sizes and compare the numbers of compositions; the cache of earlier grids is exercised with a few orders of calls.", "anchors": ["smol/moca/composition/space.py: CompositionSpace.get_composition_grid, get_supercell_base_solution, min_supercell_grid", "smol/utils/math.py: get_natural_solutions"]}
{"id": "C96", "title": "Sub-orbits are found by symmetry and the orbit hierarchy lists them", "statement": "An orbit is a sub-orbit of another exactly when its clusters are smaller and some symmetry image of them is part of the other's clusters, whichever clusters represent the orbits; get_sub_orbits(id, level, min_size) and orbit_hierarchy(level, min_size) list, once each, the sub-orbits in the subspace whose size is at least min_size and at most level sizes smaller, for every level and min_size and after orbits were removed.", "quantifier": "all crystals with a finite group of symmetry operations, all subspaces of orbits of their sites, all levels (also None) and minimal sizes", "why_tests_cant": "Tests check the hierarchy of a few subspaces for the default level; the relation between arbitrary clusters under arbitrary groups, and levels combined with minimal sizes, are not sampled.", "anchors": ["smol/cofe/space/orbit.py: Orbit.is_sub_orbit", "smol/cofe/space/clusterspace.py: ClusterSubspace.get_sub_orbits, orbit_hierarchy"]}
{"id": "C97", "title": "The function hierarchy lists exactly the factors of each correlation function", "statement": "For every correlation function, get_sub_function_ids and function_hierarchy list, once each, the functions of its sub-orbits that are factors of it: some product of site functions in the orbit of the function, restricted to sites that are a symmetry image of the smaller cluster, is one of the products of the smaller function. The mapping of sites never fails, although only one product of the smaller function and only some of the site mappings are compared. The inverted hierarchy lists the functions each function is a factor of.", "quantifier": "all crystals with a finite group of symmetry operations that preserve site spaces, all subspaces (also after removing functions or orbits), all functions, levels and minimal sizes", "why_tests_cant": "Tests compare the hierarchies of a few binary and ternary subspaces; that comparing a single representative product on the mappings found suffices depends on the group structure of the permutations of both clusters.", "anchors": ["smol/cofe/space/orbit.py: Orbit.sub_orbit_mappings", "smol/cofe/space/clusterspace.py: ClusterSubspace.get_sub_function_ids, function_hierarchy, invert_mapping"]}
{"id": "C98", "title": "Correlations do not depend on the supercell that describes an arrangement", "statement": "The same infinite arrangement of species on a crystal, described by occupancies of any two supercells in which it is periodic (a supercell and a larger one in which it is repeated, two bases of the same lattice, or two supercells neither of which contains the other), has the same correlation vector, also when one of the two is moved by a symmetry operation of the crystal and a lattice translation; features and properties computed by the two expansion processors are in the ratio of the numbers of primitive cells. The repeated occupancy exists in every supercell whose lattice is contained in that of the first.", "quantifier": "all crystals with a finite group of symmetry operations, all pairs of supercell matrices, all orbits and correlation functions, all operations and lattice translations, all occupancies", "why_tests_cant": "Tests compare a few structures with one or two supercells; the equality rests on averaging a function over two different quotients of the lattice by shifted sets of points and on the action of the symmetry group on clusters, for unboundedly many supercells.", "anchors": ["smol/cofe/space/clusterspace.py: ClusterSubspace.corr_from_structure, _gen_orbit_indices", "smol/utils/cluster/evaluator.pyx: correlations_from_occupancy", "smol/moca/processor/expansion.py: ClusterExpansionProcessor.compute_feature_vector"]}
{"id": "C99", "title": "A subspace made from cutoffs can be evaluated in every supercell", "statement": "For every crystal, every dictionary of cutoffs and all site functions that respect the symmetry, a subspace is made whenever orbits are generated (listing the functions and the test of the symmetry operations cannot fail). In every supercell, also after any sequence of removals of orbits and functions, the cluster tables can be made, and for every coefficient vector of the right length both expansion processors can be built; for every occupancy with allowed species they give feature vectors and the same property, and for every sequence of allowed flips of sites that belong to a cluster, they give changes that are exactly the differences of the feature vectors. Unless point terms are excluded or removed, every site of the supercell belongs to a cluster.", "quantifier": "all crystals with a finite group of symmetry operations, all cutoffs, all sequences of removals, all supercell matrices, all coefficients, all occupancies and sequences of flips", "why_tests_cant": "Tests evaluate a few fixed prim structures in a few supercells; the claim composes the generation of orbits, the functions, the ids after removals, the site indices in a supercell and the incremental evaluation for unboundedly many crystals, supercells and histories.", "anchors": ["smol/cofe/space/clusterspace.py: ClusterSubspace.__init__, from_cutoffs, remove_orbits, remove_corr_functions, _gen_orbit_indices", "smol/cofe/space/orbit.py: Orbit.__init__", "smol/moca/processor/expansion.py: ClusterExpansionProcessor, ClusterDecompositionProcessor"]}
{"id": "C100", "title": "Energies, means and variances of samples are those of the selected samples", "statement": "For every discard and thinning, the mean and the variance of a traced value (enthalpy, features, any vector of numbers), over all walkers or walker by walker, have one number per component, which is the mean and the variance of that component over exactly the selected samples; means lie between the extremes, variances are not negative, equal the mean of squares minus the square of the mean, and vanish exactly for equal values. The energies of the selected samples are the enthalpies without the chemical term, whatever is done to the chemical potentials of the ensemble after sampling, and the minimum energy is the smallest of them.", "quantifier": "all containers, all numbers of samples, walkers and components, all discards and thinnings, all parameters", "why_tests_cant": "Tests compute statistics of one fixed random container with many samples; they do not vary the number of selected samples, nor change the ensemble between sampling and reading.", "anchors": ["smol/moca/sampler/container.py: SampleContainer.mean_trace_value, trace_value_variance, mean_enthalpy, enthalpy_variance, mean_feature_vector, feature_vector_variance, get_energies, mean_energy, energy_variance, get_minimum_energy, _flatten"]}
{"id": "C101", "title": "Species counts and compositions of samples count sites", "statement": "The species counts of a container list, for every species of the sublattices once, and for every selected occupancy in order, the number of sites with that species summed over all sublattices; compositions are these numbers divided by the number of sites and add up to one for every occupancy when the sublattices have every site once; mean compositions and their variances are those of the selected occupancies and the means add up to one. The same holds for the composition of one sublattice.", "quantifier": "all containers, discards and thinnings, all lists of sublattices with any encodings and shared species, all occupancies", "why_tests_cant": "Tests use one ensemble with a few sublattices; sublattices with a single species, species shared between sublattices and selections of any length are unboundedly many combinations.", "anchors": ["smol/moca/sampler/container.py: SampleContainer.get_species_counts, get_compositions, mean_composition, composition_variance, get_sublattice_species_counts, get_sublattice_compositions, mean_sublattice_composition, sublattice_composition_variance"]}
{"id": "C102", "title": "Orbit factors of samples", "statement": "The orbit factors of a container are, for every selected sample, the sums over the functions of each orbit of natural parameter times feature.", "quantifier": "all containers, discards and thinnings, all parameters and orbit ids", "why_tests_cant": "No test calls this query; that the result depends on the number of samples needs a statement over all of them.", "anchors": ["smol/moca/sampler/container.py: SampleContainer.get_orbit_factors"]}
{"id": "C103", "title": "Effective cluster weights are the variances of the cluster interactions", "statement": "The effective cluster weights of an expansion have one entry for the constant (its square) and one per orbit, the sum over the functions of the orbit of ordering multiplicity times squared effective interaction. When the site functions are orthonormal, the weight of an orbit is the variance of its interaction tensor over random species of the cluster, so it does not depend on the orthonormal basis that was chosen; and over random occupancies of a supercell whose clusters have different sites the property has mean size times the constant and variance size times the sum of multiplicity times weight.", "quantifier": "all expansions, coefficients and external terms, all orbits, all numbers of species and sites, all rational measures with orthonormal site functions, all supercells whose clusters have different sites", "why_tests_cant": "The repository only compares the weights with the formula they are computed from; that they are variances is a statement over all occupancies of all supercells and over all orthonormal bases.", "anchors": ["smol/cofe/expansion.py: ClusterExpansion.effective_cluster_weights, eci, cluster_interaction_tensors", "smol/cofe/space/clusterspace.py: ClusterSubspace.function_ordering_multiplicities, function_orbit_ids"]}
{"id": "C104", "title": "The site rotation matrix maps the correlations before rotations to those after them", "statement": "For a subspace with orthonormal site bases over uniform measures, after any sequence of rotations of its site bases, site_rotation_matrix times the correlation vector of a configuration before the rotations is its correlation vector after them. The block of an orbit is orthogonal once its elements are scaled by the square roots of the numbers of products in the functions of row and column.", "quantifier": "all subspaces with orthonormal bases, all numbers of species, sites and functions, all symmetric orbits, all sequences of rotations of site bases with any angles and indices, all configurations in all supercells", "why_tests_cant": "Angles are reals, sequences of rotations and orbits are unbounded; the repository checks one rotation of a few subspaces on random occupancies with a tolerance.", "anchors": ["smol/cofe/space/clusterspace.py: ClusterSubspace.site_rotation_matrix, rotate_site_basis", "smol/cofe/space/orbit.py: Orbit.rotation_array", "smol/cofe/space/basis.py: StandardBasis.rotate, rotation_array"]}
{"id": "C105", "title": "Rows selected for full rank are independent and as many as possible", "statement": "full_row_rank_select returns increasing indices of linearly independent rows of the feature matrix, at most nrows of them, and with nrows left out it returns as many as the rank of the matrix.", "quantifier": "all feature matrices, tolerances and numbers of rows", "why_tests_cant": "the tests use random matrices, whose first rows are always independent; a duplicate or zero row in any position decides which columns of the factor have pivots", "anchors": ["smol/cofe/wrangling/select.py:full_row_rank_select"]}
{"id": "C106", "title": "Selection by composition returns the requested number of different samples, accepted by relative probability", "statement": "composition_select returns sorted indices of exactly num_samples different samples, each of which was accepted in some round because its multinomial probability is at least the number drawn times the largest probability of the given compositions, for every num_samples up to the number of samples.", "quantifier": "all composition arrays, centre compositions, sizes, numbers of samples and sequences of random numbers", "why_tests_cant": "whether the loop ends depends on the number of samples asked for and on random numbers; the largest probability is only wrong when the columns are not in order", "anchors": ["smol/cofe/wrangling/select.py:composition_select"]}
{"id": "C107", "title": "Gaussian selection returns the requested number of rows, each the best aligned of those left", "statement": "gaussian_select returns sorted indices of num_samples different rows; they can be ordered so that each row has the largest cosine with its random vector among the rows not chosen before. It succeeds whenever there are at least num_samples rows.", "quantifier": "all feature matrices without zero rows, numbers of samples, random vectors, with or without orthogonalisation", "why_tests_cant": "the vectors are random, and a test with fixed shapes does not reach one sample, one feature or more samples than features", "anchors": ["smol/cofe/wrangling/select.py:gaussian_select"]}
{"id": "C108", "title": "Structures and occupancies translate into each other without loss", "statement": "occupancy_from_structure gives every site of the supercell the species matched to it, or a vacancy if none is, and raises exactly when such a species is not allowed at its site. The order of the sites in the structure does not matter, also for correlations; correlations that are not normalised are those per cell times the number of cells. The structure made from any valid occupancy array, also for sampled occupancies, gives the array back.", "quantifier": "all supercells, allowed species, structures, injective site mappings, orders of sites and encoded occupancies", "why_tests_cant": "tests match a few structures; the order of sites, missing sites and vacancies are combinatorial", "anchors": ["smol/cofe/space/clusterspace.py:ClusterSubspace.occupancy_from_structure", "smol/cofe/space/clusterspace.py:ClusterSubspace.corr_from_structure", "smol/moca/processor/base.py:Processor.structure_from_occupancy", "smol/moca/processor/base.py:Processor.occupancy_from_structure", "smol/moca/sampler/container.py:SampleContainer.get_sampled_structures"]}
{"id": "C109", "title": "Gram and similarity matrices of features are cosines and fractions of equal values", "statement": "get_gram_matrix gives the inner products of the chosen features over the chosen structures; normalised, it is symmetric with ones on the diagonal, elements lie between -1 and 1, and an element is 1 exactly when the features are positive multiples of each other. get_similarity_matrix is symmetric with ones on the diagonal and gives the fraction of structures in which the first of two features is close to the second one. The rank of an orbit uses exactly the columns of its functions.", "quantifier": "all feature matrices, choices of rows and columns (also repeated), tolerances", "why_tests_cant": "tests compare shapes and a few values; the bounds and the equality case hold for all matrices", "anchors": ["smol/cofe/wrangling/wrangler.py:StructureWrangler.get_gram_matrix", "smol/cofe/wrangling/wrangler.py:StructureWrangler.get_similarity_matrix", "smol/cofe/wrangling/wrangler.py:StructureWrangler.get_feature_matrix_orbit_rank"]}
{"id": "C110", "title": "Refining a structure keeps its occupancy", "statement": "refine_structure gives a structure with the same occupancy as the given one, and refining it again gives the same structure.", "quantifier": "all supercells, allowed species, structures and injective site mappings", "why_tests_cant": "tests refine a few structures, with ordinary vacancies only", "anchors": ["smol/cofe/space/clusterspace.py:ClusterSubspace.refine_structure"]}
{"id": "C111", "title": "The similarity of two features does not depend on their order", "statement": "The element of get_similarity_matrix for two features is the same for every order of the chosen columns.", "quantifier": "all feature matrices, choices of rows and columns, tolerances", "why_tests_cant": "the effect of the order only shows for values at the edge of the tolerance", "anchors": ["smol/cofe/wrangling/wrangler.py:StructureWrangler.get_similarity_matrix"]}
{"id": "C112", "title": "Energies of an ensemble are the predictions of its cluster expansion", "statement": "For an ensemble made from a cluster expansion, with or without an Ewald term and with either type of processor, the property of an occupancy equals the prediction of the expansion for the structure of that occupancy, whatever the order of its sites; per cell it equals the normalised prediction. Both types of processors agree, changes are differences of properties, and other types raise.", "quantifier": "all expansions with at most one Ewald term, supercells, occupancies, orders of sites, flips", "why_tests_cant": "tests compare processors with predictions for a few random occupancies; the equality crosses the evaluator, tensors, Ewald matrix, coefficients and the matching of structures", "anchors": ["smol/moca/ensemble.py:Ensemble.from_cluster_expansion", "smol/cofe/expansion.py:ClusterExpansion.predict", "smol/moca/processor/composite.py:CompositeProcessor", "smol/moca/processor/expansion.py:ClusterDecompositionProcessor"]}
{"id": "C113", "title": "A sublattice survives its dictionary", "statement": "A sublattice, after any history of freezing and unfreezing sites, and every part it is split into, is read back from its dictionary with the same species, sites, codes and active sites.", "quantifier": "all site spaces, lists of sites, histories, occupancies and splits", "why_tests_cant": "tests save a fresh sublattice; histories and splits are unbounded", "anchors": ["smol/moca/sublattice.py:Sublattice.as_dict", "smol/moca/sublattice.py:Sublattice.from_dict", "smol/moca/sublattice.py:Sublattice.split_by_species"]}
{"id": "C114", "title": "A saved ensemble is restored with the same features", "statement": "Reading an ensemble from its dictionary gives an ensemble with the same parameters, sublattices, chemical potentials and features, also when sites were frozen or unfrozen after the potentials were set.", "quantifier": "all ensembles, potentials and histories of freezing and unfreezing", "why_tests_cant": "tests save ensembles right after construction; the table of potentials is rebuilt on reading from the sublattices that are active then", "anchors": ["smol/moca/ensemble.py:Ensemble.as_dict", "smol/moca/ensemble.py:Ensemble.from_dict", "smol/moca/ensemble.py:ChemicalPotentialManager"]}
{"id": "C115", "title": "Orbits and functions of a subspace by size and diameter", "statement": "After any history of removals and changes of bases, the functions by size list every function once under the size of its orbit; the cutoffs are the largest diameters of each size; selecting orbits or functions by cutoffs gives exactly those within the bounds, one number bounding all multi-site orbits and a dictionary each size, which raises exactly when a size is missing or its bound is not met; selecting with the reported cutoffs gives all multi-site orbits; orbits by diameter group every orbit once.", "quantifier": "all subspaces, histories of removals, diameters, bounds and dictionaries of bounds", "why_tests_cant": "tests check one subspace with its own cutoffs; histories, diameters and bounds are unbounded", "anchors": ["smol/cofe/space/clusterspace.py:ClusterSubspace.cutoffs", "smol/cofe/space/clusterspace.py:ClusterSubspace.function_inds_by_size", "smol/cofe/space/clusterspace.py:ClusterSubspace.orbits_by_diameter", "smol/cofe/space/clusterspace.py:ClusterSubspace.orbits_by_cutoffs", "smol/cofe/space/clusterspace.py:ClusterSubspace.orbits_from_cutoffs", "smol/cofe/space/clusterspace.py:ClusterSubspace.function_inds_from_cutoffs"]}
{"id": "C116", "title": "Comparison of subspaces sees removals", "statement": "A subspace equals itself, its copy and the subspace loaded from it; comparison is symmetric; after an existing function or orbit is removed it no longer equals what it was before; an orbit is a member exactly if an equal orbit is listed.", "quantifier": "all subspaces, histories and removals", "why_tests_cant": "tests remove a few orbits of one subspace", "anchors": ["smol/cofe/space/clusterspace.py:ClusterSubspace.__eq__", "smol/cofe/space/clusterspace.py:ClusterSubspace.__contains__"]}
{"id": "C117", "title": "Subspaces that compare equal have the same orbits", "statement": "If two subspaces compare equal, each orbit of one is an orbit of the other, and equality is transitive.", "quantifier": "all pairs and triples of subspaces", "why_tests_cant": "tests compare a subspace with copies of itself; the comparison stops at the shorter list of orbits of each size", "anchors": ["smol/cofe/space/clusterspace.py:ClusterSubspace.__eq__"]}
{"id": "C118", "title": "Decorations of a Potts subspace are all labelings in symmetry classes", "statement": "Generating the orbits of a Potts subspace never fails. The decorations of each orbit are all assignments of allowed species to the sites of its cluster, each once, in classes of symmetrically equivalent ones, without the last class if that was removed; the decorations of a function are the class at its position in its orbit.", "quantifier": "all orbits, site spaces, permutation groups of the sites, numbers of orbits", "why_tests_cant": "tests count decorations of one structure; site spaces, symmetry groups and orbits are unbounded", "anchors": ["smol/cofe/space/clusterspace.py:PottsSubspace.from_cutoffs", "smol/cofe/space/clusterspace.py:PottsSubspace.get_function_decoration", "smol/cofe/space/clusterspace.py:PottsSubspace.get_orbit_decorations"]}
{"id": "C119", "title": "Removing the last cluster takes one decoration from every orbit", "statement": "A Potts subspace generated with remove_last_cluster has, for every orbit, one class of decorations fewer than one generated without.", "quantifier": "all structures and cutoffs", "why_tests_cant": "tests use cutoffs of pairs and larger clusters only", "anchors": ["smol/cofe/space/clusterspace.py:PottsSubspace.from_cutoffs", "smol/cofe/space/clusterspace.py:PottsSubspace.get_orbit_decorations"]}
{"id": "C120", "title": "The score of a special structure is the score of its supercell", "statement": "A generator of special structures has a processor for every supercell matrix it uses, none for two matrices with the same rows, and refuses matrices of another shape or determinant and targets or weights of the wrong length. The score and the feature distances that it computes for the structure of an occupancy are those of its processor for the occupancy, whatever the order of the sites and of the rows of the matrix; so every returned special structure has the score reported with it.", "quantifier": "all subspaces, lists of matrices, targets, weights, occupancies, orders of sites and rows", "why_tests_cant": "tests score a few generated structures; the look-up by sorted rows and the way back from structures to occupancies is checked for one cell", "anchors": ["smol/capp/generate/special/sqs.py:SQSGenerator.__init__", "smol/capp/generate/special/sqs.py:SQSGenerator.compute_score", "smol/capp/generate/special/sqs.py:SQSGenerator.compute_feature_distance", "smol/capp/generate/special/sqs.py:SQSGenerator.get_best_sqs"]}
{"id": "C121", "title": "Scores of special structures refer to the target given to the generator", "statement": "The scores of a generator are distances to the target vector, with the weights, match weight and tolerance that it was created with.", "quantifier": "all ways of creating a generator, targets, weights and tolerances", "why_tests_cant": "tests create generators from processors without another target", "anchors": ["smol/capp/generate/special/sqs.py:SQSGenerator.__init__", "smol/capp/generate/special/sqs.py:SQSGenerator.from_processors"]}
{"id": "C122", "title": "Structures are scored for every description of their supercell", "statement": "A structure of a supercell used by the generator has a score, whatever lattice vectors describe the supercell.", "quantifier": "all generators, supercells and bases of their lattices", "why_tests_cant": "tests pass the matrices of the generator itself", "anchors": ["smol/capp/generate/special/sqs.py:SQSGenerator.compute_score"]}
{"id": "C123", "title": "What a composition space remembers never changes its answers, and its dictionary keeps all of it", "statement": "Whatever was asked of a composition space before, in any order and with any number of saves and loads between, the vertices, minimal supercell size, base solutions, basis, flip table and composition grids are those of a new space with the same arguments. The dictionary of the space makes an equal space: the same equations, inequalities, options and stored results.", "quantifier": "all composition spaces, constraints and histories of requests, saves and loads", "why_tests_cant": "tests save one space after one computation; results are stored by seven kinds of requests that call each other", "anchors": ["smol/moca/composition/space.py:CompositionSpace.as_dict", "smol/moca/composition/space.py:CompositionSpace.from_dict", "smol/moca/composition/space.py:CompositionSpace.basis", "smol/moca/composition/space.py:CompositionSpace.flip_table", "smol/moca/composition/space.py:CompositionSpace.get_supercell_base_solution", "smol/moca/composition/space.py:CompositionSpace.get_composition_grid", "smol/moca/composition/space.py:CompositionSpace.min_supercell_size"]}
{"id": "C124", "title": "The feature matrix of a wrangler belongs to its structures and its subspace", "statement": "At any time the rows of the feature matrix of a StructureWrangler are the correlation vectors, in its current cluster subspace, of the occupancies of its structures, in the same order, and the sizes are those of their supercells. A wrangler loaded from a dictionary has the same rows, sizes, occupancies and properties and shares nothing with the original.", "quantifier": "all histories of entries being processed, added, appended and removed, changes of subspaces, updates, saves and loads, with any number of wranglers", "why_tests_cant": "tests use one wrangler at a time; entries are changed in place, so it depends on which wranglers hold the same entry", "anchors": ["smol/cofe/wrangling/wrangler.py:StructureWrangler.add_entry", "smol/cofe/wrangling/wrangler.py:StructureWrangler.process_entry", "smol/cofe/wrangling/wrangler.py:StructureWrangler.change_subspace", "smol/cofe/wrangling/wrangler.py:StructureWrangler.update_features", "smol/cofe/wrangling/wrangler.py:StructureWrangler.append_entries", "smol/cofe/wrangling/wrangler.py:StructureWrangler.from_dict"]}
{"id": "C125", "title": "Properties set for the structures are the properties read", "statement": "After a vector of properties is added to a wrangler, reading the property gives the vector; other properties, and the properties of wranglers with other entries, do not change.", "quantifier": "all histories and all dictionaries of properties given with entries", "why_tests_cant": "tests give every entry a dictionary literal of its own", "anchors": ["smol/cofe/wrangling/wrangler.py:StructureWrangler.add_properties", "smol/cofe/wrangling/wrangler.py:StructureWrangler.get_property_vector", "smol/cofe/wrangling/wrangler.py:StructureWrangler.add_entry"]}
{"id": "C126", "title": "Seeds determine the samples of flips and swaps, walker by walker", "statement": "A sampler built with seeds, for a step type that is one of the plain proposals (flip or swap, also by default), gives the same samples whatever else the process did before, for any sequence of runs. The seeds recorded in its samples, also when none were given, give the same samples again. Each walker of a sampler walks as the only walker of a sampler with its seed.", "quantifier": "all ensembles, kernels (Metropolis, uniformly random, Wang-Landau), proposals, seeds, numbers of walkers, sequences of runs, generators and states of the process", "why_tests_cant": "tests compare two runs of one process; the claim is about every generator used along every run", "anchors": ["smol/moca/sampler/sampler.py:Sampler.from_ensemble", "smol/moca/sampler/sampler.py:Sampler.run", "smol/moca/sampler/sampler.py:Sampler.sample", "smol/moca/sampler/sampler.py:Sampler._reshape_occu", "smol/moca/kernel/base.py:MCKernel.__init__", "smol/moca/kernel/mcusher.py:MCUsher.__init__"]}
{"id": "C127", "title": "Seeds determine the samples of composite, multi-step and table flip samplers", "statement": "A sampler built with seeds gives the same samples in every process, also for composite steps and multi-steps whose parts are given by name and for table flips, and its recorded seeds give the same samples again.", "quantifier": "all step types given by name, seeds, sequences of runs and processes", "why_tests_cant": "whether a generator was passed on shows only in another process", "anchors": ["smol/moca/kernel/mcusher.py:MultiStep.__init__", "smol/moca/kernel/mcusher.py:Composite.__init__", "smol/moca/kernel/mcusher.py:TableFlip.__init__", "smol/moca/kernel/mcusher.py:TableFlip.propose_step", "smol/moca/sampler/sampler.py:Sampler.from_ensemble"]}
{"id": "C128", "title": "Recorded steps of a composite match their weights", "statement": "The specification recorded by a composite step lists every step once, in order, with its weight.", "quantifier": "all lists of steps and weights, given when the composite is built or added later", "why_tests_cant": "tests do not read the recorded specification", "anchors": ["smol/moca/kernel/mcusher.py:Composite.__init__", "smol/moca/kernel/mcusher.py:Composite.add_mcusher"]}
{"id": "C129", "title": "Multi-steps of mixed steps are symmetric", "statement": "A multi-step over a composite of flips and swaps, whose a-priori log factor is zero, proposes going from one occupancy to another with the same probability as going back.", "quantifier": "all multi-steps over composites, all occupancies and pairs of occupancies", "why_tests_cant": "it compares exact probabilities of every pair of occupancies; sampled frequencies cannot show equality", "anchors": ["smol/moca/kernel/mcusher.py: MCUsher.compute_log_priori_factor", "smol/moca/kernel/mcusher.py: MultiStep.propose_step", "smol/moca/kernel/mcusher.py: Composite.propose_step"]}
{"id": "C130", "title": "Saved processors are loaded as they were", "statement": "A processor loaded from its dictionary has the subspace, supercell matrix and coefficients of the one that was saved, and computes the same features, properties and changes of them. So does a composite of processors, with its parts in order.", "quantifier": "all expansion processors, decomposition processors with their default coefficients, Ewald processors, and composites of them, on any subspace with orbits, also when tables or an Ewald term were added to the shared subspace since; all occupancies and flips", "why_tests_cant": "states come from histories of construction, pruning, sharing and saving; tests save and load single fresh objects", "anchors": ["smol/moca/processor/base.py: Processor.as_dict, from_dict", "smol/moca/processor/expansion.py: ClusterExpansionProcessor.from_dict, ClusterDecompositionProcessor.as_dict, from_dict", "smol/moca/processor/ewald.py: EwaldProcessor.as_dict, from_dict", "smol/moca/processor/composite.py: CompositeProcessor.as_dict, from_dict, add_processor"]}
{"id": "C131", "title": "Coefficients given to a decomposition processor are loaded", "statement": "A decomposition processor that was given coefficients has them after it is saved and loaded.", "quantifier": "all subspaces with orbits, supercell matrices, interaction tensors and coefficients", "why_tests_cant": "tests use default coefficients", "anchors": ["smol/moca/processor/expansion.py: ClusterDecompositionProcessor.__init__, as_dict, from_dict"]}
{"id": "C132", "title": "Copies of expansions are equal", "statement": "A copy of an expansion, or one loaded from its dictionary, has the same subspace, coefficients, regression data and feature matrix, and so predicts the same.", "quantifier": "all expansions on subspaces with orbits, made, used for predictions and pruned in any order, whose coefficients fit the subspace and the feature matrix of the regression data if there is one", "why_tests_cant": "states come from histories of construction, pruning, sharing and saving; tests save and load single fresh objects", "anchors": ["smol/cofe/expansion.py: ClusterExpansion.__init__, copy, as_dict, from_dict"]}
{"id": "C133", "title": "Pruned expansions can be copied", "statement": "An expansion can be copied, saved and loaded after it was pruned.", "quantifier": "all expansions, thresholds and ways to prune", "why_tests_cant": "tests copy expansions before pruning", "anchors": ["smol/cofe/expansion.py: ClusterExpansion.prune, copy, from_dict"]}
{"id": "C134", "title": "Processors are independent of later changes of the expansion", "statement": "A processor made on the subspace of an expansion computes the same, and can be saved and loaded, after the expansion is pruned.", "quantifier": "all expansions, supercells, thresholds, occupancies and flips", "why_tests_cant": "the objects share a subspace; tests do not change one while using the other", "anchors": ["smol/moca/processor/base.py: Processor.__init__, as_dict", "smol/cofe/expansion.py: ClusterExpansion.prune"]}
{"id": "C135", "title": "Making a processor leaves the subspace", "statement": "Making a processor on a subspace leaves its orbits, functions and external terms, so that an expansion on it can still be copied and used for predictions.", "quantifier": "all subspaces, supercell matrices, coefficients, tensors and Ewald terms", "why_tests_cant": "tests make Ewald processors on subspaces that have the term", "anchors": ["smol/moca/processor/ewald.py: EwaldProcessor.__init__", "smol/moca/processor/expansion.py: ClusterExpansionProcessor.__init__, ClusterDecompositionProcessor.__init__"]}
{"id": "C136", "title": "Exact processors have no drift", "statement": "compute_average_drift returns zero forward and reverse drift for a processor whose changes are the differences of its property, and for composites of such processors; if all changes are wrong by the same amount, it returns that amount twice.", "quantifier": "all expansion, decomposition and Ewald processors and composites of any number of them with symmetric Ewald matrices, all supercells whose first sites have two species or more, all draws, all numbers of iterations except zero", "why_tests_cant": "the draws are random; tests check that one drift is small", "anchors": ["smol/moca/processor/base.py: Processor.compute_average_drift", "smol/moca/processor/expansion.py: compute_property_change", "smol/moca/processor/ewald.py: compute_property_change", "smol/moca/processor/composite.py: compute_property_change"]}
{"id": "C137", "title": "The drift check finds wrong changes", "statement": "For every processor that computes a wrong change for some flip of some occupancy there are draws for which compute_average_drift does not return zero; and it does not raise.", "quantifier": "all processors, sites, occupancies and flips", "why_tests_cant": "tests only run the check on right processors", "anchors": ["smol/moca/processor/base.py: Processor.compute_average_drift, size, num_sites"]}
{"id": "C138", "title": "Copied and loaded clusters have the same species", "statement": "A copy of a cluster, and the cluster loaded from its dictionary, has on every site the same species with the same amounts, vacancies included.", "quantifier": "all clusters, made from sites or site spaces, with any numbers of sites and species", "why_tests_cant": "tests compare clusters with ==, which only looks at coordinates", "anchors": ["smol/cofe/space/cluster.py: Cluster.__init__, from_sites, copy, as_dict, from_dict", "smol/cofe/space/domain.py: get_site_spaces, SiteSpace, Vacancy"]}
{"id": "C139", "title": "Files of samples hold every traced value, also after a failed write", "statement": "A file to which any number of containers with the same traced values are saved reads, for every traced value, as all their samples one after the other, with the sums of their numbers and steps. If saving raises at any point, the file reads as before.", "quantifier": "all numbers of containers, traced values and samples, all shapes, all files with any unused space, all points at which writing a traced value may raise", "why_tests_cant": "tests save a few containers with one set of traced values and no failures", "anchors": ["smol/moca/sampler/container.py: SampleContainer.to_hdf5, from_hdf5, get_backend, flush_to_backend, _check_backend, _init_backend, _grow_backend"]}
{"id": "C140", "title": "Samples in a file belong together", "statement": "A file only takes samples of the ensemble recorded in it, and every sample that is read from it, for every traced value, was written to it.", "quantifier": "all containers and existing files", "why_tests_cant": "tests append to files of the same simulation", "anchors": ["smol/moca/sampler/container.py: SampleContainer.to_hdf5, get_backend, _check_backend"]}
{"id": "C141", "title": "What is read from an expansion belongs to its coefficients", "statement": "Effective cluster interactions, interaction tensors, cluster weights and the interactions of structures that are read from an expansion are those of its present coefficients and functions, in whatever order they are read and however often and by whatever thresholds the expansion is pruned in between; the interactions times multiplicities add up to the prediction.", "quantifier": "all expansions, numbers of external terms, histories of reads and prunings, thresholds and occupancies", "why_tests_cant": "tests prune once and do not compare what was read before and after for all orders of reads", "anchors": ["smol/cofe/expansion.py: ClusterExpansion.eci, cluster_interaction_tensors, effective_cluster_weights, cluster_interactions_from_structure, prune, predict, _set_evaluator_data"]}
{"id": "C142", "title": "Assigned coefficients reach everything that is read", "statement": "After coefficients are assigned to an expansion, effective cluster interactions, tensors, weights, interactions of structures and pruning by effective interactions use them, as predictions do.", "quantifier": "all expansions, coefficients, histories of reads, assignments and prunings", "why_tests_cant": "tests do not assign coefficients", "anchors": ["smol/cofe/expansion.py: ClusterExpansion.coefs, eci, cluster_interaction_tensors, effective_cluster_weights, cluster_interactions_from_structure, prune"]}
{"id": "C143", "title": "Special structures have the composition of the disordered structure", "statement": "A search for special structures starts from one random occupancy for each supercell, any with the numbers of species of the disordered structure on each sublattice and no others. Every occupancy that is recorded while supercells make swaps and the search hops between supercells, changes temperature, goes on from recorded occupancies or starts again has these numbers on every sublattice, vacancies among them.", "quantifier": "all disordered structures with distinct site spaces, supercell sizes and numbers of supercells that allow the numbers, probabilities of sublattices, acceptance rules, histories of steps, hops, resumptions and restarts", "why_tests_cant": "tests run a few short searches with random draws on one structure", "anchors": ["smol/capp/generate/special/sqs.py: StochasticSQSGenerator._get_initial_occupancies, generate", "smol/moca/kernel/base.py: MulticellKernel.single_step, set_aux_state", "smol/capp/generate/random.py: generate_random_ordered_occupancy", "smol/moca/kernel/mcusher.py: Swap.propose_step"]}
{"id": "C144", "title": "A processor finds the sublattices of its structure, always the same", "statement": "For a structure whose sites with the same species have the same composition, written in any order, a processor has every site in exactly one sublattice, and the species and measure of the sublattice are those of the site, with vacancies for what is missing. The sublattices and their order do not depend on hash values or on the order in which sets are iterated.", "quantifier": "all structures of sites with up to 98 species, orders of species, hash functions that agree on equal compositions, and orders of iteration", "why_tests_cant": "hash values change from run to run, and tests have few structures", "anchors": ["smol/moca/processor/base.py: Processor.__init__, unique_site_spaces, allowed_species, get_sublattices", "smol/cofe/space/domain.py: SiteSpace.__init__, __eq__, __lt__, __hash__, get_site_spaces, get_allowed_species"]}
{"id": "C145", "title": "Written and implied vacancies give the same sublattice", "statement": "Sites with the same species and measure are in one sublattice, whether their vacancies are written in the composition or implied by an occupation below one.", "quantifier": "all structures, hash functions and orders of iteration", "why_tests_cant": "tests write vacancies in one way in each structure", "anchors": ["smol/moca/processor/base.py: Processor.__init__, unique_site_spaces, allowed_species, get_sublattices", "smol/cofe/space/domain.py: SiteSpace.__init__, __eq__, __lt__, __hash__, get_site_spaces, get_allowed_species"]}
{"id": "C146", "title": "Flips and swaps reach exactly the occupancies that they should", "statement": "If every active sublattice has a positive probability, a sequence of flip proposals can lead from a valid occupancy to another occupancy if and only if that one is valid and agrees on all sites that are not active. Swap proposals reach exactly those of them that also have the same number of every code on every sublattice.", "quantifier": "all layouts of sublattices, restricted sites, encodings, positive sublattice probabilities and pairs of occupancies", "why_tests_cant": "which states a sampler can never reach is not visible in finite runs, and tests look at single proposals", "anchors": ["smol/moca/kernel/mcusher.py: MCUsher.__init__, get_random_sublattice, Flip.propose_step, Swap.propose_step"]}
{"id": "C147", "title": "The Boltzmann distribution is the only stationary distribution of Metropolis sampling", "statement": "For Metropolis sampling with flips or with swaps at any temperature, the occupancies that can be reached from a valid one are finitely many, and a distribution on them is left unchanged by a step of the sampler if and only if it is the Boltzmann distribution with the bias, normalised over these occupancies.", "quantifier": "all layouts, sublattice probabilities that are positive, ensembles with exact changes, biases, temperatures, starting occupancies and distributions", "why_tests_cant": "uniqueness is about all distributions; a test can only compare averages of finite runs within noise", "anchors": ["smol/moca/kernel/mcusher.py: MCUsher.__init__, get_random_sublattice, Flip.propose_step, Swap.propose_step", "smol/moca/kernel/metropolis.py: Metropolis._accept_step", "smol/moca/kernel/base.py: MCKernel.single_step, ThermalKernelMixin"]}
{"id": "C148", "title": "Averages over runs of the Metropolis sampler converge to averages of the ensemble", "statement": "For Metropolis sampling with flips or with swaps and any function of occupancies, the expected average of the function over the first n occupancies of a run differs from its Boltzmann average over the occupancies that can be reached by at most a constant divided by n, whatever occupancy the run starts from.", "quantifier": "all layouts, positive sublattice probabilities, ensembles with exact changes, biases, temperatures, functions of occupancies, starts and lengths of runs", "why_tests_cant": "tests compare averages of finite runs within noise, for one ensemble; the claim is about expectations in the limit, for all of them", "anchors": ["smol/moca/kernel/mcusher.py: Flip.propose_step, Swap.propose_step", "smol/moca/kernel/metropolis.py: Metropolis._accept_step", "smol/moca/kernel/base.py: MCKernel.single_step", "smol/moca/sampler/sampler.py: Sampler.sample"]}
{"id": "C149", "title": "Random sampling with thinning can record every occupancy", "statement": "The kernel that accepts all steps samples all states: with flips, and for any interval between recorded samples, every valid occupancy that agrees with the start on the sites that are not active can be among the recorded samples.", "quantifier": "all layouts, positive sublattice probabilities, starts, thinning intervals, numbers of steps and random streams", "why_tests_cant": "that a state is never recorded, in any run of any length, is not visible in finite runs", "anchors": ["smol/moca/kernel/mcusher.py: Flip.propose_step", "smol/moca/kernel/random.py: UniformlyRandom._accept_step", "smol/moca/sampler/sampler.py: Sampler.sample"]}
{"id": "C150", "title": "The centroid composition is the allowed composition closest to the mean vertex", "statement": "The composition suggested for a supercell is one of its compositions: natural numbers of species that fill the sublattices, are neutral and satisfy all equations and inequalities. No other such composition is closer, in coordinates, to the mean of the vertices of the space. It is on the grid of compositions of the supercell. An error is raised only if the supercell has no such composition.", "quantifier": "all spaces, lattice bases, supercell sizes, inequalities, vertices and exact integer solvers", "why_tests_cant": "that no allowed composition is closer, or that none exists, ranges over all compositions of all supercells", "anchors": ["smol/utils/math.py: get_natural_centroid", "smol/moca/composition/space.py: CompositionSpace.get_centroid_composition"]}
{"id": "C151", "title": "Reaction formulas tell exactly what a flip does and are balanced", "statement": "The formula of a flip lists on the left the species that are removed, with number and sublattice, and on the right those that are added; species that stay are not listed. Different flips have different formulas. For the flips of the basis, and for the difference of any two compositions of a supercell, both sides have the same number of species on every sublattice, and the same charge if the space is neutral.", "quantifier": "all spaces, sublattices, species, flip vectors, lattice bases and pairs of compositions", "why_tests_cant": "balance and uniqueness range over all flip vectors of all spaces", "anchors": ["smol/moca/composition/space.py: flip_vec_to_reaction", "smol/moca/composition/space.py: CompositionSpace.flip_reactions"]}
{"id": "C152", "title": "Removing an ordering from an orbit removes its correlation function and nothing else", "statement": "Removing an ordering of site functions removes exactly the orderings that symmetry makes of it, whichever of them is given. The other functions of the orbit keep their orderings, their correlation tensors and their order. An ordering that the orbit does not have changes nothing. An error is raised exactly when no function would be left, and the orbit is then unchanged.", "quantifier": "all orbits, site bases, permutation groups, earlier removals and orderings", "why_tests_cant": "which orderings are equivalent depends on the permutation group and the site bases, over all orbits and earlier removals", "anchors": ["smol/cofe/space/orbit.py: Orbit.remove_bit_combo"]}
