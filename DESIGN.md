# Formal model of smol in Rocq (Coq 8.16.1)

`properties.jsonl` lists what should hold of smol, in terms of its API.
`rocq/theories` holds a model of the code and the theorems about it.
`MANIFEST.json` says which theorems prove which property.

## Layout

* `<Area>.v` - the model: total executable Gallina functions, one per function
  of `/repo/smol`, each with a comment that cites file and lines and names the
  simplifications.
* `<Area>Spec.v` (where needed) - specification vocabulary that does not use
  the model's helpers.
* `<Area>Proofs.v` (where needed) - lemmas.
* `<Area>Props.v` - the theorems `Cnn_...` of the properties with `Print
  Assumptions`, and `Example`s that meet their hypotheses in a non-trivial case.
* `Lib.v`, `QcLib.v`, `RLib.v`, `Prob.v` - lists, finite sums of rationals,
  rationals as reals, finite random computations.

Names of theorems: `_partial` marks a theorem that proves the property under
a condition that the property does not state (the manifest's note says what is
missing); `_refuted` marks a proof that the unconditional property is false of
the code, by a reachable counterexample.

## Trusted base

1. Coq's kernel (8.16.1), including `vm_compute`, which is used for examples
   and counterexamples on literals.
2. The axioms that `Print Assumptions` lists. `ASSUMPTIONS.md` gives them for
   every theorem of the manifest (written by `tools/assumptions.py`). Most
   theorems are closed under the global context. The others speak about real
   numbers (exp, ln, sqrt) and use axioms of the standard library only:
   `ClassicalDedekindReals.sig_forall_dec`, `ClassicalDedekindReals.sig_not_dec`,
   `FunctionalExtensionality.functional_extensionality_dep` and
   `Classical_Prop.classic`. There are no axioms, parameters or admitted
   proofs of our own and no libraries beside Coq's standard library.
3. The model: that the Gallina functions do what the Python and Cython code
   does. This was done by reading; every definition cites the lines.

## Conventions of the model

* Site indices, codes and dimensions are `nat`; counts and integer matrices are
  `Z`; energies, tensors, features, coefficients and probabilities are
  canonical rationals `Qc`; where exp, log or sqrt occur, `R`.
  Floating point rounding, overflow and NaN are not modelled. Tolerances
  (`np.isclose`, `NUM_TOL`) are modelled where a property depends on them
  (C43, C45, C51, C54, C55, C57, C76, C78) and are exact comparisons elsewhere;
  the model's comments say which.
* An exception is `None`. Properties that promise a result prove that it is
  not `None`.
* Random draws are arguments, and theorems quantify over all of them; where
  probabilities matter, a random computation is the list of its outcomes
  with their weights (`Prob.v`), with the documented distributions of numpy.
* numpy arrays are lists and in-place changes return the new value. Where
  sharing of arrays or objects has observable effects, a store is modelled
  (`Multicell.v`, `Sqs.v`, `Threads.v`).
* Results of other packages (pymatgen's symmetry search, structure matching and
  Ewald matrix, numpy's pseudo-inverse, linear programs, solvers) are parameters with
  the hypotheses stated in the theorems.

## What is modelled and what is not

| source | modelled | not modelled |
|--------|----------|--------------|
| `moca/occu_utils.py` | all functions | `delta_counts_from_step`'s numpy typing |
| `moca/sublattice.py` | construction, restriction, splitting, reset, dictionaries | the dictionary of a composition |
| `moca/ensemble.py` | chemical potentials, natural parameters, features and changes, freezing, splitting, construction from expansions, dictionaries | - |
| `moca/kernel/mcusher.py` | Flip, Swap, MultiStep, Composite, TableFlip with a-priori factors | - |
| `moca/kernel/base.py`, `metropolis.py`, `random.py` | single steps, traces, temperatures, multi-cell kernels, the stationary distribution of the chain | kernel specifications (`spec`) except seeds and the steps of composites |
| `moca/kernel/wanglandau.py` | window, entropy, histogram, mean features, modification | - |
| `moca/kernel/bias.py` | fugacity, square charge, square hyperplane | the factory beyond C60 |
| `moca/sampler/*.py` | construction with seeds, sampling, runs, annealing, streaming, container queries, sampled structures, statistics and files (as states, also after failed writes) | progress bar, HDF5 itself, JSON itself |
| `moca/processor/*.py`, `utils/cluster/evaluator.pyx`, `ewald.pyx` | features, changes, properties of all processors; drift checks; dictionaries; threads as interleavings | the C memory model, construction of evaluators from structures |
| `moca/composition/*.py` | constraints, space, formats, basis optimisation, flip tables, composition grids, the composition closest to the centroid, the terms of reaction formulas, stored results and dictionaries | the text of formulas; vertices of the polytope and the integer solver of the centroid (arguments; the theorem assumes an exact solver and takes the mean of the vertices, as the code does, for the centroid) |
| `moca/analysis/convergence.py` | all | plotting |
| `cofe/space/domain.py` | site spaces, measure, equality, order, sets of site spaces, vacancies | - |
| `cofe/space/basis.py` | standard bases of all flavours, orthonormalisation, rotation, verdicts, dictionaries | numpy's QR (an argument), clipping of tiny numbers, the separate IndicatorBasis class |
| `cofe/space/cluster.py`, `orbit.py`, `clusterspace.py` | equality, copies and dictionaries of clusters, equivalent clusters and site permutations from symmetry operations, generation of orbits and subspaces from cutoffs, the site rotation matrix, site indices of orbits in supercells, correlations in different supercells, sub-orbits and hierarchies of orbits and functions, functions, ids, correlation tensors, orbit multiplicities, mappings, dictionaries, selections by size, diameter and cutoffs, comparison of subspaces, decorations of Potts subspaces | spglib (finding the operations), neighbor search, numpy's matrix inverse and the cache of orbit indices, structure matching |
| `cofe/expansion.py` | coefficients, effective interactions and cluster weights and their caches, prediction, pruning, copies and dictionaries with regression data | names and parameters of regressions |
| `cofe/extern/ewald.py` | term values and their indices | pymatgen's Ewald sum |
| `cofe/wrangling/*.py` | entries and the wranglers that hold them, properties, weights, change of subspaces, dictionaries, duplicates, filters, Boltzmann weights, selection of rows, Gram and similarity matrices | structure matching, ranks and condition numbers, numerical errors of the LU factorisation, the multinomial probability function |
| `capp/generate/random.py` | unconstrained, neutral and composition generators | the draws themselves (distributions and positions), the warning |
| `capp/generate/enumerate.py`, `special/sqs.py`, `groundstate` | supercell matrices, search loop and ranking, occupancies at the start and during the search, processors of supercells and scores of structures, variables, constraints, terms, objective, solution | solvers, structure objects |
| `utils/math.py` | Hermite forms, gcd, Smith form, Diophantine equations, natural solutions, optimal bases, ergodic vectors, rationalisation, flip weights | the KD-tree, the linear programs and numpy's rank (arguments); see the files' headers |
| `utils/class_utils.py`, `setmany.py`, `numthreads.py`, `_openmp_helpers.pyx` | all | abstract classes' bodies |

## Properties

<!-- table begins -->
| id | property | theorems in | model | proof | status | remarks |
|----|----------|-------------|-------|-------|--------|---------|
| C01 | Composition bookkeeping agrees with the occupancy | OccuUtilsProps | OccuUtils, Sublattice | induction over the step; the table lookup of a step is split into removals and additions | proved | For every table and step; C01_defined shows the change is defined for legal steps. |
| C02 | Species lists and counts partition the counted sites | OccuUtilsProps | OccuUtils, Sublattice | counting lemma over a partition of the sites | proved | For every layout whose sublattice sites partition the supercell. |
| C03 | Restricting sites is monotone, order independent and undone by reset | SublatticeProps | Sublattice | invariant preserved by every operation, induction over the history | proved |  |
| C04 | Splitting a sublattice by species partitions its sites by occupancy | EnsembleProps, SublatticeProps | Ensemble, Bias, Kernel, OccuUtils, Prob, SiteTable, Sublattice, TableFlip, Usher | specification of one part of a split, then induction over the parts; refutation by a concrete light vacancy | partial | Site/active/encoding parts are proved in full. Codes keep their species only if a vacancy in the group weighs more than 1% of it; refuted otherwise (C04_light_vacancy_refuted). |
| C05 | Flip proposals are legal single flips | UsherProps | Usher, OccuUtils, Prob, Sublattice | outcomes of the random program listed exactly; symmetry by exchanging outcomes | proved | Exact proposal probabilities, legality, totality and symmetry for every usher built by the constructor. |
| C06 | Swap proposals conserve composition | UsherProps | Usher, OccuUtils, Prob, Sublattice | counting of pairs of sites with different species; swaps preserve every count | proved | Includes conservation of every species count. |
| C07 | Multi-step proposals never touch a site in two sub-steps and chain consistently | UsherProps | Usher, OccuUtils, Prob, Sublattice | induction over the number of sub-steps with the threaded occupancy | proved | For any inner proposer with the stated step legality; swap instance given. |
| C08 | Composite usher picks by normalised weights and delegates | UsherProps | Usher, OccuUtils, Prob, Sublattice | induction over additions, total weight stays one | proved | Weights normalise for every accepted sequence of additions. |
| C09 | Table flips realise exactly a table vector on active sites | TableFlipProps | TableFlipKernel, TableFlipLog | row arithmetic in Z; a flip of section k adds the k-th row to the counts | proved | Tables of pairwise different, non-opposite rows that conserve sites; swaps are covered by C06. Also: constraints kept, never raises. |
| C10 | Table flip a-priori factor is the log ratio of proposal probabilities | TableFlipProps | TableFlipKernel, TableFlipLog | product of combination counts; ratio of forward and reverse proposals equals exp of the returned factor | proved | Over the reals (standard-library axioms of Reals). Transition probabilities sum over all site selections. Numerical tolerances are exact comparisons. |
| C11 | Metropolis acceptance satisfies detailed balance | KernelProps | Kernel, OccuUtils, Prob, Sublattice, TableFlipKernel, TableFlipLog, Usher | case split on the exponent, exp/ln lemmas; detailed balance from the exact a-priori factor | proved | Over the reals. Acceptance interval, downhill moves, detailed balance for any proposer with exact a-priori factor, and instances for flips, swaps and table flips. |
| C12 | A kernel step either applies the whole proposal or changes nothing | KernelProps | Kernel, OccuUtils, Prob, Sublattice, TableFlipKernel, TableFlipLog, Usher | unfolding of a step with an arbitrary draw; accepted and rejected cases | proved | Any proposer; the uniform draw is an argument (log of a zero draw raises). |
| C13 | Recorded features, enthalpy and bias match the recorded occupancy along every run | SamplerProps | Sampler, Container, Kernel, OccuUtils, Prob, Sublattice, Usher | induction over walkers, steps and thinning; invariant: trace = recomputed features | proved | Any number of walkers, steps and thinning; by induction over the run. C13_run_defined shows runs do not raise. |
| C14 | Multi-cell kernel caches stay synchronised | MulticellProps | Multicell, Kernel, OccuUtils, Prob, Sublattice, Usher, WangLandau | invariant over buffers with aliasing; refutation by a run of two steps | partial | Proved for the current cell along every history (recorded and cached features, enthalpy, reported changes, when the cell changes) and for cells that still hold the array they were given. Refuted in general: after an in-cell step the cell's trace aliases the walker row, so an accepted hop overwrites the occupancy stored for the cell that was left while its cached features stay. |
| C15 | Temperature and inverse temperature never disagree | KernelProps, SamplerProps | Kernel, OccuUtils, Prob, Sublattice, TableFlipKernel, TableFlipLog, Usher, Sampler, Container | induction over assignment histories; annealing as a fold of runs | proved | Assignment histories, multi-cell assignment, annealing without streaming. The Boltzmann-constant setter of a multi-cell kernel does not reach its cells (modelled, noted in DESIGN.md). |
| C16 | Wang-Landau never leaves its enthalpy window | WangLandauProps | WangLandau, Kernel, OccuUtils, Prob, Sublattice, Usher | window invariant and histogram conservation, induction over steps | proved | Runs of any length started inside the window, any proposal the MCUsher can make, any random numbers in (0,1); exact arithmetic. Starting outside the window (where the code indexes the entropy table with an out-of-window bin) is not covered. |
| C17 | Wang-Landau counters are mutually consistent | WangLandauProps | WangLandau, Kernel, OccuUtils, Prob, Sublattice, Usher | invariant over modification factors and flatness checks | proved | As C16, for modification schedules that keep the factor positive. |
| C18 | Wang-Landau mean features are averages of the recorded visits | WangLandauProps | WangLandau, Kernel, OccuUtils, Prob, Sublattice, Usher | running-mean identity by induction over visits; refutation for longer periods | partial | Proved for update_period = 1; false of the code for larger periods (C18_update_period_refuted): visits between updates overwrite the mean. |
| C19 | Bias changes equal differences of biases | BiasProps | Bias, Ensemble, Kernel, OccuUtils, Prob, SiteTable, Sublattice, TableFlip, Usher | telescoping sums over the sites of a step, also repeated | proved | Fugacity, square charge and square hyperplane biases: value in terms of the species carried by each site, and change = difference for every allowed step (sites may repeat). Fugacity needs positive fractions on a layout; logarithms are over the reals (stdlib axioms). numpy infinities of zero fractions not modelled. |
| C20 | Chemical potential assignments keep natural parameters consistent | EnsembleProps | Ensemble, Bias, Kernel, OccuUtils, Prob, SiteTable, Sublattice, TableFlip, Usher | state-machine invariant over operations | proved | Any history of assignments (valid or rejected), deletions, splits, freezing; the state after an exception inside a split is not modelled. Direct user assignment of natural_parameters (public setter) is not among the operations. |
| C21 | Ensemble feature changes equal differences of feature vectors | EnsembleProps | Ensemble, Bias, Kernel, OccuUtils, Prob, SiteTable, Sublattice, TableFlip, Usher | telescoping sums; refutation with a repeated site | partial | False of the code for steps that repeat a site once chemical potentials are set (C21_repeated_site_refuted); proved for steps with distinct sites and, without potentials, for all steps, given a processor with exact changes. |
| C22 | Every sample of an in-memory run is stored once and in order | SamplerProps | Sampler, Container, Kernel, OccuUtils, Prob, Sublattice, Usher | refinement of the container to an append-only list | proved | Any history of in-memory runs. |
| C23 | Streaming to disk stores the same samples as an in-memory run | SamplerProps | Sampler, Container, Kernel, OccuUtils, Prob, Sublattice, Usher | induction over chunks; refutation with a remainder | partial | Holds when the chunk size divides the number of samples and the container is empty; refuted otherwise: leftover samples are lost, and streaming into a non-empty container raises. |
| C24 | Discard and thin select the documented samples | ContainerProps | Container | list lemmas for selections; argmin specification | partial | Selection, flattening, minimum value and efficiency are proved. The minimum occupancy is proved for the flat query with more than one entry; refuted for one entry (a site code is returned) and for the per-walker query (every walker is read at the first walker's index). |
| C25 | Saving and loading a sample container preserves its samples | ContainerProps | Container | round trip of the container state; refutation with unused rows | partial | Proved for containers without unused allocated rows (as after any run); refuted with unused rows. |
| C26 | Local correlation changes equal differences of full correlations | EvaluatorProps | Evaluator, Kernel, OccuUtils, Prob, Sublattice, Usher, WangLandau | double counting of clusters per site; finite sums over writes | proved | Full and local evaluation modelled from evaluator.pyx and processor/expansion.py; the change theorem covers every flip list over sites in at least one cluster (see C70 for the others); C26_value gives each entry as a mean of tensor entries. |
| C27 | Local interaction changes equal differences of full interactions | EvaluatorProps | Evaluator, Kernel, OccuUtils, Prob, Sublattice, Usher, WangLandau | as C26 for interaction tensors | proved | Same scope as C26 for the decomposition processor. |
| C28 | Ewald energy changes equal differences of Ewald energies | EwaldProps | Ewald, Evaluator, Kernel, OccuUtils, Prob, Sublattice, Usher | double sum over ordered pairs, ring identities per flip, induction over flips | proved | The matrix entries are given (pymatgen); exact arithmetic. C28_value: the feature is the sum over all ordered pairs of ions, with indices counted from the species lists. C28_change: for every list of flips, also repeated sites, the change is the difference, for symmetric matrices. C28_symmetry_needed: without symmetry it is not. |
| C29 | Expansion and decomposition processors compute the same property | ExpansionProps | Evaluator, Kernel, OccuUtils, Prob, Sublattice, Subspace, Usher, WangLandau | both processors reduced to the same mean of tensor entries | proved | Includes construction of both processors from coefficients, well-formedness of the processors, and changes. |
| C30 | Composite processors add their parts | EwaldProps | Ewald, Evaluator, Kernel, OccuUtils, Prob, Sublattice, Usher | sums over processors; refutations with ragged features | partial | C30_difference: for any list of expansion, decomposition and Ewald processors the property change is the difference of the properties. C30_value_partial, C30_change_partial: property = sum over parts = coefficients dot features, when all parts after the first have features of one shape. C30_shapes_refuted: otherwise compute_feature_vector raises (np.append of a ragged list). C30_empty_refuted: without parts features raise and the property is 0. |
| C31 | Occupancy encoding round trips | EncodingProps | Encoding, OccuUtils, Sublattice | round trip by position lemmas for lists without duplicates | proved |  |
| C32 | Correlation evaluation is independent of the thread schedule | EvaluatorProps | Evaluator, Kernel, OccuUtils, Prob, Sublattice, Usher, WangLandau | commutation of writes to distinct slots; induction over interleavings | proved | Each orbit's work is a list of writes; any interleaving gives the sequential result because the slots are distinct. Data races inside a single write and the C memory model are not modelled. |
| C33 | Correlation function ids stay contiguous under any removal history | SubspaceProps | Subspace, Evaluator, OccuUtils | invariant of the subspace over removals, basis changes and table requests | proved | Reachable subspaces: the constructor followed by any list of removals of orbits or functions, basis changes and table requests. The dictionary of orbits is modelled in ascending order of sizes. |
| C34 | Flat tensor indexing is a bijection | EvaluatorProps | Evaluator, Kernel, OccuUtils, Prob, Sublattice, Usher, WangLandau | strides and C-order positions; induction over dimensions | proved | Stride vector, flat index loop and C-order tensors. |
| C35 | Symmetrised bit combinations partition all decorations | OrbitProps | Evaluator, Kernel, OccuUtils, Prob, Sublattice, Subspace, Usher, WangLandau | group action on multi-indices; orbits of equal size | proved | The cluster permutations are assumed to form a group and to exchange only sites with the same functions; C89 proves both for the orbits of a crystal. |
| C36 | Potts concentrations of an orbit add to one | OrbitProps | Evaluator, Kernel, OccuUtils, Prob, Sublattice, Subspace, Usher, WangLandau | partition of unity of indicator functions; refutation with a symmetric pair | partial | Proved: correlations of an indicator orbit are non-negative fractions and the sum weighted with the numbers of symmetric variants is one. The plain sum of the statement is refuted for a symmetric pair: tensors are divided by the number of variants. PottsSubspace(remove_last_cluster) and geometry outside. |
| C37 | Aliased orbit groups are exactly the classes of identical cluster sets | HierarchyProps | Hierarchy | partition proof for the grouping loop | proved | Groups are ascending, disjoint, ordered by first member, have at least two members, and contain two different orbits iff the orbits have the same clusters as unordered site collections. |
| C38 | Inverting and completing orbit hierarchies | HierarchyProps | Hierarchy | round-count argument: closure is reached after at most as many rounds as rows | proved | Inverse: membership is transposed, rows strictly descending, inverting twice gives the same relation. Completion: for acyclic tables with entries in range the loop ends within as many rounds as there are orbits and gives the transitive closure. C38_cyclic_diverges: an orbit reaching a cycle makes the loop run forever. |
| C39 | Hermite normal forms are enumerated exactly once | HnfProps | IntMath | explicit enumeration lemma; reduction of any matrix by column operations; uniqueness of the reduced form | proved | Modelled exactly over Z (IntMath.v). C39_forms: the enumerated Hermite forms are exactly the upper triangular 3x3 matrices with given determinant and reduced off-diagonal entries, each once. C39_sublattices: every integer matrix of that determinant spans the lattice of exactly one of them. C39_supercells: the symmetry reduction keeps one representative per class. |
| C40 | Extended Euclid returns Bezout coefficients | SnfProps | IntMath | strong induction on the absolute value | proved | Extended Euclid over Z with the sign handling of the code; termination of the recursion and the Bezout identity for all integers. |
| C41 | Smith decomposition is exact | SnfProps | IntMath | termination measure on the pivot; product of elementary matrices | partial | C41_decomposition_partial: M A T = S, M and T invertible over Z, S diagonal, for every matrix and every size. C41_smith_partial: the divisibility chain for min(n,d) <= 2. C41_smith_refuted: the final pass does not give the divisibility chain in general: diag(2,4,3) gives (2,1,12). |
| C42 | Diophantine solver returns the whole solution lattice | SnfProps | IntMath | change of variables by the unimodular factors; kernel description | partial | Soundness of every returned solution and the raised cases are proved in general. Completeness of the returned lattice is proved for independent rows (C42_lattice_partial) and for exactly one zero on the diagonal (C42_one_zero_partial). Refuted in general: only the vectors after the last zero diagonal index are returned, inconsistent zero rows are not checked, and the default right-hand side has the wrong length for non-square matrices. |
| C43 | One dimensional and natural solutions are enumerated completely | NatSolProps | NatSol | induction over dimensions with linear-program bounds as oracle | partial | Exact rationals; the linear program is an oracle whose bounds are right up to the tolerance. Complete and sound for one variable when the tolerance times every component is below 1 (C43_one_dim_partial), for several variables with step 1 (C43_natural_partial), sound for every step (C43_natural_step_partial). C43_tolerance_refuted: components beyond the inverse tolerance make the rounding admit an infeasible point. Raising means infinitely many solutions (C43_unbounded). Missing: floats, and completeness of the linear program itself. |
| C44 | Flip feasibility masks are exact | TableFlipProps | TableFlipKernel, TableFlipLog | arg-max and partition arguments on lists | proved | Per-species list of maxima (the only use in the code). |
| C45 | Composition formats translate without loss | CompSpaceProps | CompSpace, IntMath, Kernel, OccuUtils, Prob, SiteTable, Sublattice, Usher | linear algebra over Qc: span and kernel of the basis; rounding distance argument | partial | Proved for every space: feasible compositions are accepted unchanged (with rounding too when whole), whole infeasible ones are rejected in every format while (largest denominator of a right side) x (supercell size) stays below 1e6, and everything accepted meets nonnegativity, charge balance and sublattice sizes within the tolerance. Counts to coordinates and back is the identity both ways, for fractional compositions too, and whole compositions have whole coordinates, under: constraint denominators at most 1000, a pseudo-inverse P with V P V = V (numpy's contract), a solvable base size, and a system whose integer solutions are all found (shown for independent rows, or one dependent row). Counts to compositions and back is the identity, each fraction is count/size, and compositions to counts and back keep every fraction (fractions below 1e-8 are dropped by pymatgen, so they are excluded). Species counts are the totals per species. Refuted: inequality constraints are never checked by the translation; in cells above 1e6 the tolerance accepts infeasible whole counts; with two redundant constraints some feasible compositions have no coordinates; a space feasible only in doubled cells raises. Not modelled: optimize_basis, floats. |
| C46 | Constraint strings mean what they say | ConstraintsProps | Constraints, Kernel, OccuUtils, Prob, SiteTable, Sublattice, Usher | parser as a fold over words; semantic invariant of the accumulated row | partial | Proved for strings in the documented form whose numbers are read exactly (integers always are): the returned row and right side demand just the written inequality for every composition, an unknown species is the only reason for refusal, and the stored lists of a fresh object demand just the conjunction of the stated constraints. Refuted in general: a number before the last term of a side is dropped silently, a number within np.isclose of an integer is rounded (50000.5 becomes 50000), a tuple with an unknown label is dropped, and a second assignment is ignored. |
| C47 | Duplicate groups of feature vectors are the equality classes | DuplicatesProps | Duplicates, Sublattice | equivalence classes of rounded rows | partial | Proved with external terms excluded and for the default decimals. False in the code otherwise: keeping external terms always raises (C47_external_refuted); get_matching_corr_duplicate_indices passes its decimals argument as cutoffs (C47_decimals_refuted). |
| C48 | Wrangler entries, properties, weights and index sets stay aligned | WranglerProps | Wrangler | invariant over operation histories | partial | Proved for histories where new entries get the names of the present ones (alignment) and for histories without removals (index sets). False otherwise: an entry added without properties makes the vector unreadable, remove_properties stops at the first entry lacking the key, remove_entry leaves stale index sets. |
| C49 | Ewald structure selection keeps low energy structures | DuplicatesProps | Duplicates, Sublattice | selection loop specified by minima of classes | partial | Selection proved exact; the Ewald energies read from stored features are only right when the Ewald term is the last external term (C49_last_term_refuted). |
| C50 | Ground-state variables round trip with occupancies | GroundStateProps | GroundState, Encoding, OccuUtils, Sublattice | bijection between allowed occupancies and feasible 0/1 vectors | partial | get_variables_from_sublattices, get_occupancy_from_variables, get_variable_values_from_occupancy and the normalization constraints are modelled. Encode and decode are inverse bijections between allowed occupancies and feasible 0/1 vectors for every layout in which codes stand for the species of the site spaces; default, restricted and split sublattices have such layouts, split ones when no group drops a light vacancy (C04). Refuted without that: a dropped vacancy is decoded as another species. |
| C51 | Linearised objective is exact | GroundTermsProps | GroundState, Sublattice | exactness of the product linearisation, induction over products | proved | get_expression_and_auxiliary_from_terms with exact numbers, for all term lists, cutoffs and assignments: value, uniqueness of the auxiliary variables, which products get one, when the problem is refused, and a bound on what the cutoff drops. The order of the point terms in the sum is not modelled. |
| C52 | Ground-state objective equals the ensemble energy | GroundEnergyProps | GroundEnergy, Encoding, Ensemble, Evaluator, Kernel, OccuUtils, Prob, SiteTable, Sublattice, TableFlip, Usher | values of terms against the processors' features; optimality transferred along the bijection of C50 | partial | Terms of expansion, decomposition, electrostatic and chemical-potential objectives have the value of the processors for every feasible assignment, so optimal solutions are exactly the ground states (canonical and semigrand). Refuted without a wide table: potentials are read for every species of the original site space, so a split that drops the last species makes building the terms raise. |
| C53 | Special structure search keeps the best candidates | SqsProps | Sqs, Container, Sublattice | loop invariant with a store of trace objects; refutations for continued runs | partial | Proved for runs that clear earlier results: such a run never raises, keeps the last k strict improvements (at most k, strictly improving, the last one best of all seen) and stores exactly those; get_best_sqs ranks them, loses none but matches and those beyond the limit. With clear_previous=False the claim is false: the best score restarts at infinity (C53_restart_refuted), saving raises when old and new do not fit in the new rows (C53_rows_refuted), equal structures survive removal of duplicates (C53_duplicates_refuted). |
| C54 | Convergence burn-in search | ConvergenceProps | Convergence | specification of mean and variance over R, first-candidate search | proved | Proved in full: the result is the first candidate whose remaining samples are judged converged, else 0; the verdict is characterised with real means and standard deviations. Two facts against the documentation: 0 is also returned when nothing converges (C54_zero_refuted), and the result need not be the smallest number that leaves converged samples (C54_smallest_refuted). Floating point of np.arange and np.std is not modelled. |
| C55 | Correlation distances are differences of distances to the target | DistanceProps | Distance, Evaluator, Kernel, OccuUtils, Prob, Sublattice, Subspace, Usher, WangLandau | features as absolute differences; longest prefix of orbits within tolerance | proved | For correlation and interaction distances: features are absolute differences to the target with the largest diameter in front up to which all features of orbits are within the tolerance (unique; 0 if none or if its weight is 0), the change for a step is the difference of the features, for every processor built from a consistent subspace. |
| C56 | Pruning keeps predictions of the kept terms | PruneProps | Prune, Evaluator, Kernel, OccuUtils, Prob, Sublattice, Subspace, Usher, WangLandau | alignment invariant between functions and coefficients; refutations | partial | Proved when the constant and every external coefficient stay: coefficients and functions stay aligned and predictions are the sums over the kept terms of original coefficients and original features; with with_multiplicity external terms always stay. Refuted otherwise: when the constant or an external coefficient is below the threshold, pruning raises or leaves an expansion whose predictions raise (C56_fixed_dropped_refuted, C56_constant_raises, C56_constant_broadcast). |
| C57 | Cluster identity is invariant under lattice translations | ClusterProps | Cluster | lattice translations modulo tolerance, triangle inequality, matching of point sets | proved | Rational coordinates in any dimension; the tolerance is at most one half. C57_separation_needed shows that closer sites break symmetry. Site spaces take no part in the comparison, as in the code. |
| C58 | Site spaces that differ are not equal | DomainProps | Sublattice | case analysis of the zip comparison; refutation by a prefix | partial | Equality zips and so ignores extra species: exact for full compositions or ones leaving more than 1% vacancy, refuted in between. |
| C59 | Attributes and thread numbers set on many objects | ThreadsProps | Threads | heap of attribute values; fold over objects | partial | Setting: every object of the container and no other gets the accepted value, or nothing changes; thread numbers lie between 1 and what the machine offers. Reading returns only the value of the first object, so objects set one by one to different values are not told apart (C59_read_refuted). Processors without a number use the default, not the number of the subspace as documented (C59_subspace_refuted). |
| C60 | Class lookup by name is case/format insensitive and idempotent | ClassNamesProps | ClassNames | induction over words and characters | partial | Dashes and camel caps in any mixture give the name; normalising is idempotent; every spelling makes the class of that name. Spaces and underscores do not separate words, and all-capitals or unseparated small letters are not understood (C60_separators_refuted). ASCII only. |
| C61 | Default sublattices partition the supercell | EncodingProps | Encoding, OccuUtils, Sublattice | grouping of sites by site space; refutation | partial | Holds when the unique site spaces have different species lists; refuted when two site spaces have the same species with different measures. |
| C62 | Site spaces are ordered with the vacancy last and total one | DomainProps | Sublattice | sum of the sorted composition; refutation | partial | Holds without explicit vacancies and with totals below 0.99 or equal to 1; refuted otherwise. |
| C63 | Proposals with zero a-priori factor are symmetric | UsherSymProps | OccuUtils, Prob, Sublattice, Usher | changes of names commute with proposals: for flips the two species of every site trade names, for swaps the sites of pairs trade places (any result of swaps on disjoint sites is an involution); commuting is kept by multi-steps and composites, by induction over the loop and the structure of the proposer | proved |  |
| C64 | Documented selection probabilities are honoured | UsherProps | Usher, OccuUtils, Prob, Sublattice | refutation for all inputs | partial | Refuted: the multi-step constructor raises for every accepted list of step probabilities (it reads an attribute that it does not set); only the uniform default works. The part about sublattice probabilities is proved. |
| C65 | Reported species counts of samples match the sampled occupancies | ContainerProps | Container | position lemmas | proved | All valid occupancies. |
| C66 | Chemical work follows the sublattices that are active now | EnsembleProps | Ensemble, Bias, Kernel, OccuUtils, Prob, SiteTable, Sublattice, TableFlip, Usher | state-machine counterexample | partial | False of the code: the table of potentials is not rebuilt when a sublattice becomes active or inactive (C66_unfreeze_refuted). |
| C67 | Wang-Landau steps leave the inverse density of states distribution invariant | WangLandauProps | WangLandau, Kernel, OccuUtils, Prob, Sublattice, Usher | exponential of entropy differences | proved | Exact rational entropies, real exponentials. |
| C68 | Recorded bias in multi-cell runs | MulticellProps | Multicell, Kernel, OccuUtils, Prob, Sublattice, Usher, WangLandau | invariant while no hop is accepted; refutation by a run | partial | Proved while no hop is accepted; refuted for accepted hops, which reuse the bias change of an earlier step of the target cell. |
| C69 | Documented cell and hop-period probabilities are honoured | MulticellProps | Multicell, Kernel, OccuUtils, Prob, Sublattice, Usher, WangLandau | normalisation of probabilities; refutation for all inputs | partial | Proved for the default cell probabilities and for hop-period probabilities; refuted for given cell probabilities, with which the constructor always raises (kernel_p versus _kernel_p). |
| C70 | Flipping a site that takes part in no cluster | EvaluatorProps | Evaluator, Kernel, OccuUtils, Prob, Sublattice, Usher, WangLandau | refutation for all processors | partial | False of the code: the per-site dictionary has no key for a site in no cluster, so any flip list starting with such a site raises KeyError although the full vectors do not change; C70_no_cluster_refuted proves both facts for all processors. |
| C71 | Cached cluster tables belong to the current orbits | SubspaceProps | Subspace, Evaluator, OccuUtils | permutation invariance of finite sums | proved | The geometric search for cluster sites is a function parameter; its independence of the row order is a hypothesis. |
| C72 | Saved subspaces are restored with the same functions | SubspaceProps | Subspace, Evaluator, OccuUtils | round trip of subspace records; refutation for Potts subspaces | partial | Proved for ClusterSubspace with orbits (or whose tables were not asked for) and for Potts subspaces that keep all decorations. False for a subspace left without orbits that was asked for a table since: loading raises (C72_empty_refuted). False for Potts subspaces created without the last decorations: from_dict removes one more function of every orbit (or raises) and leaves the evaluator with the old functions; C72_potts_refuted proves this for all reachable subspaces with an orbit. |
| C73 | Serializing a distance processor keeps its property | DistanceProps | Distance, Evaluator, Kernel, OccuUtils, Prob, Sublattice, Subspace, Usher, WangLandau | round trip of processor records; refutation | partial | Proved: all features but the first survive, and with unit weights and the default tolerance the processor is the same. Refuted: weights and tolerance are not stored (C73_weights_refuted, C73_tolerance_refuted). |
| C74 | Constant features | DuplicatesProps | Duplicates, Sublattice | membership of rows in lists | proved | The first column is left out by the code because it is the constant one; numpy comparison modelled as exact equality. |
| C75 | Boltzmann weights of training structures | WeightsProps | Weights | normalised positive weights over R, monotonicity of exp | proved | Over the reals; uses the axioms of Coq's Reals. |
| C76 | Composition constraints of the ground-state problem | GroundEnergyProps | GroundEnergy, Encoding, Ensemble, Evaluator, Kernel, OccuUtils, Prob, SiteTable, Sublattice, TableFlip, Usher | rows of constraints evaluated on 0/1 vectors | proved | Rows must not hold nonzero entries that count as zero (1e-8), a stated hypothesis; the sublattice-size rows and a vanishing charge row that the code skips are shown to hold always. |
| C77 | The ground-state solver reports the solution it found | GroundEnergyProps | GroundEnergy, Encoding, Ensemble, Evaluator, Kernel, OccuUtils, Prob, SiteTable, Sublattice, TableFlip, Usher | solver as an oracle; cached occupancy as state | partial | Proved for an object without a cached occupancy and values not below the solution. Refuted: astype(int) cuts values slightly below one (any tolerance), and a second solve without reset reports the occupancy of the first. |
| C78 | Numbers become the closest small fractions and vectors are integerised by the least multiplier | RationalizeProps | Rationalize | continued-fraction convergents: determinant invariant, best-approximation argument | proved | Includes CPython's continued fraction loop (limit_denominator) with a proof that it terminates and returns a closest fraction. Floats are their exact rational values; the division in the tolerance check is exact. |
| C79 | Every site basis is a complete basis of the functions of the species | BasisProps | Basis, Sublattice | linear independence over R: polynomial roots, orthogonality of trigonometric sums, triangular indicators; independent families of n vectors span | proved | Values are exact reals. The model covers the indicator, sinusoid, polynomial, Chebyshev and Legendre bases; numpy's polynomial evaluation is modelled by the three-term recurrences. |
| C80 | Orthonormalising a site basis gives orthonormal functions with the same span | BasisProps | Basis, Sublattice | QR factorisation as an argument with its defining equations; first column forced to be constant; induction over repeated orthonormalisations | partial | Proved for site spaces whose measures sum to one, with the QR factorisation as an argument of which only A = QR, orthonormal columns of Q and triangular R are used. False for spaces with totals between 0.99 and 1 (C80_measure_refuted). |
| C81 | Rotations of a site basis keep its geometry and the rotation array records them | BasisProps | Basis, Sublattice | the rotation matrix is I plus rank two and orthogonal; invariant over any list of calls; refutations for all two-species bases and for index pairs | partial | Proved for three or more species and any sequence of calls whose indices name different functions, and for two species after an odd number of calls. False for two species after an even number of calls (rotation_array becomes -I) and for an index and its negative twin (the function is scaled by 2cos(angle)-1). |
| C82 | Orthogonality verdicts are right, and right for the built-in bases | BasisProps | Basis, Sublattice | trigonometric sums over R; tolerance bounds | proved | Exact reals; the tolerances are those of np.allclose. |
| C83 | A site basis survives its dictionary | BasisProps | Basis, Sublattice | record round trip over an inductive type of histories; refutation for all fresh bases | partial | The orthonormalisation array None of a fresh basis becomes np.array(None). All else survives, and so does everything of a basis that was orthonormalised. |
| C84 | Rotating a site basis of a cluster subspace rotates every equivalent basis exactly once | BasisProps | Basis, Sublattice | invariant of a loop over positions in a store (which are rotated, which untouched); refutation by two site spaces | partial | Proved when measures sum to one. False otherwise: site spaces are compared up to the shorter one, so a basis over another site space may be rotated too (C84_prefix_refuted). |
| C85 | Unconstrained random occupancies are uniform over all allowed ones | RandomOccuProps | RandomOccu, Encoding, OccuUtils, Prob, Sublattice, TableFlip, Usher | induction over sublattices; the probability of one occupancy factorises over independent draws | proved |  |
| C86 | Random neutral occupancies are neutral and reproducible | RandomOccuProps | RandomOccu, Encoding, OccuUtils, Prob, Sublattice, TableFlip, Usher | invariant over attempts (valid, charge as computed); reachability by induction on the number of sites that differ from a neutral arrangement; refutations by computed cases | partial | Refuted: the first occupancy ignores the given seed, so the same seed gives different results; with one species on every site the generator raises although the only occupancy is neutral. The rest is proved. |
| C87 | Random occupancies of a composition have that composition and are uniform | RandomOccuProps | RandomOccu, Encoding, OccuUtils, Prob, Sublattice, TableFlip, Usher | induction over species and sublattices: sets of sites drawn without replacement, probability of one arrangement as a multinomial; rounding is exact within the tolerance; refutations by computed cases | partial | Proved for compositions that list every species of their sublattice (a vacancy may be implied), one composition per sublattice, tuples normalised. Refuted: a species that is not listed (end members) raises; an incomplete composition is accepted by a sublattice without vacancies and the rest gets the first species; one composition for several sublattices leaves the others filled with their first species; a tuple that needs normalising raises. |
| C88 | Orbits generated from cutoffs are exactly the inequivalent clusters within them | OrbitGenProps | OrbitGen, Evaluator, OccuUtils, Sublattice, Subspace | invariant over the loop over sizes (sound, pairwise inequivalent, complete); a cluster of size k+1 is reached from one of size k by the orbit that represents it; the sphere reaches by the triangle inequality for the metric; refutations by a triclinic lattice with a proved list of neighbors | partial | Proved: soundness for any neighbors (C88_sound), completeness for points and pairs (C88_pairs), completeness for all sizes and success when no point of the cell is further from its centre than all sites (for example orthogonal axes with a site at the origin). Refuted: in a skewed cell a triple within the cutoff is in no orbit, because the neighbors are searched around the centre of the cell with a radius that only reaches its sites; KeyError when a size has no cluster within its cutoff and a larger size is listed. Simplified: exact arithmetic, distances compared through squares, neighbors from pymatgen as a specified list. |
| C89 | Clusters and operations of an orbit satisfy the orbit-stabiliser relation | OrbitGenProps | OrbitGen, Evaluator, OccuUtils, Sublattice, Subspace | counting images: the images of a cluster under a finite group, grouped by equality up to translation, have equal sizes; the permutations compose | proved | The operations are taken modulo lattice translations, listed once, with inverses and compositions among them, and mapping sites to sites isometrically (what a space group of the structure gives); exact arithmetic. |
| C90 | The cutoff of single sites excludes or is ignored, and the dictionary is not changed | OrbitGenProps | OrbitGen, Evaluator, OccuUtils, Sublattice, Subspace | case analysis over the dictionary; refutations by computed cases | partial | Proved: None excludes, other values are ignored, dictionaries without key 1 are unchanged. Refuted: the key is popped from the dictionary of the caller, so a second call with {1: None} generates points; the documented {1: 0} does not exclude points. |
| C91 | Orbit indices in a supercell list every equivalent cluster once | OrbitIndicesProps | OrbitIndices, Evaluator, GroundEnergy, OccuUtils, OrbitGen, Sublattice, Subspace | lattice points of the cell represent all lattice vectors modulo the supercell (floor of the fractional coordinates, corners of the box); each site has exactly one match; equivalent clusters modulo supercell vectors correspond to pairs of a cluster and a point | proved | The inverse of the matrix is an input with the inverse property, and the tolerance is assumed to tell the sites of the supercell apart (it is relative to the supercell). lattice_points_in_supercell, make_supercell and coord_list_mapping_pbc of pymatgen are modelled in exact arithmetic. The cache of get_orbit_indices is not modelled. |
| C92 | Symmetrically equivalent occupancies have the same correlations | SymmetryProps | Evaluator, GroundEnergy, Kernel, OccuUtils, OrbitGen, OrbitIndices, Prob, Sublattice, Subspace, Usher, WangLandau | the operation permutes the rows of orbit indices up to the order of the sites; the change of order is a permutation of the cluster, under which the sum over a group of bit combinations is invariant; composed from C35, C89 and C91 | proved | The orbits are those that the model generates from clusters, with the site indices of C91; the multiplication by the size of the supercell in processors is C26. Operations that do not keep the supercell are outside the statement: they map the occupancy to another supercell. |
| C93 | Optimising the basis of a composition space keeps the compositions that it generates | ErgodicProps | Ergodic, CompSpace, IntMath, Kernel, OccuUtils, Prob, SiteTable, Sublattice, Usher | Steinitz exchange over the integers (decidable dependence); invariant of the optimisation loop; a pure lattice of rank two is kept because two independent short vectors span it; refutation for three vectors with every exact rank and every grid | partial | Size, independence, membership in the lattice and improvement are proved for any number of vectors; that the lattice is kept is proved for at most two vectors of a pure lattice, and for spaces of at most two dimensions. False of the code for three vectors or more (C93_half_refuted): only linear independence is tested, so the result may generate half of the flips. numpy's rank is an argument, assumed to recognise independent tables. |
| C94 | An ergodic flip table connects all compositions of the minimal supercell | FlipTableProps | CompSpace, IntMath, Kernel, OccuUtils, Prob, SiteTable, Sublattice, Usher | the candidates are differences of grid points; the extension stops when every point has a neighbour or all candidates are used, and the nearest other point of each disconnected point is a candidate; induction over the distance in one dimension; refutations by two spaces with inequality constraints | partial | That the basis stays and that added flips connect grid points holds always; every composition gets a neighbour when there are at least as many compositions as neighbours asked for; full ergodicity for one dimension. False of the code in general: a neighbour for every composition does not connect the graph (C94_disconnected_refuted), and with fewer than three compositions the query for three neighbours raises (C94_single_refuted). The KD-tree is an argument, assumed to return the nearest points. |
| C95 | Composition grids list exactly the compositions of a supercell | CompGridProps | CompSpace, IntMath, Kernel, OccuUtils, Prob, SiteTable, Sublattice, Usher | invariant of the store: keys are coprime and grids are what a fresh enumeration gives, so that a matching key is unique; completeness from C43 and from the lattice of the basis (C45, C93); scaling of base solutions, points and constraints | partial | Independence of earlier calls, soundness for every step, and exactness (each composition once) for steps that divide the size. For other steps only soundness is proved. Inequalities with the code's tolerance; the equations need regular spaces (see C45) and right-hand sides with denominators up to 1000. False of the code: a step that is a multiple of a factor of the size may raise although the size has compositions (C95_half_refuted). |
| C96 | Sub-orbits are found by symmetry and the orbit hierarchy lists them | SubOrbitsProps | SubOrbits, Evaluator, OccuUtils, OrbitGen, Sublattice, Subspace | subsets of the base cluster are compared with the clusters of the sub-orbit through the characterisation of C89; positions and combinations; ranges of sizes; refutations by a cubic example | partial | Sub-orbit test and its independence of representatives in full; get_sub_orbits and orbit_hierarchy are exact when min_size is 1 or the level stops above size zero, and there are orbits of every size searched. False of the code otherwise: with no level, a negative one, or one not smaller than the size, min_size is ignored (C96_min_size_refuted); when all orbits of a size between were removed KeyError is raised (C96_missing_refuted). |
| C97 | The function hierarchy lists exactly the factors of each correlation function | SubOrbitsProps | SubOrbits, Evaluator, OccuUtils, OrbitGen, Sublattice, Subspace | equations between symmetry images are solved in the group; the sub-orbit's own base cluster is always compared with the exact lattice vector, because the centroid of the subset differs from its centroid by an integer; permutations of both base clusters are absorbed by the closure of the groups of bit combinations (C35) | proved | Relative to the sub-orbits that get_sub_orbits returns (C96). Coordinates are exact; the default tolerance of is_coord_subset is any positive number not above the site tolerance. Site spaces are assumed invariant under the operations. |
| C98 | Correlations do not depend on the supercell that describes an arrangement | ExtensiveProps | Evaluator, GroundEnergy, Kernel, OccuUtils, OrbitGen, OrbitIndices, Prob, Sublattice, Subspace, Usher, WangLandau | double counting: the sum over pairs of lattice points of the two supercells is evaluated by rows and by columns, each of which is a permutation of the points of one supercell; the operation permutes the clusters of the orbit up to translations and the permutations of the orbit, under which the functions are invariant | proved | any two supercells and any symmetry operation of the crystal (C92 is the case of one supercell that the operation keeps); the property of the decomposition processor follows with C29 |
| C99 | A subspace made from cutoffs can be evaluated in every supercell | FromCutoffsProps | FromCutoffs, Evaluator, GroundEnergy, Kernel, OccuUtils, OrbitGen, OrbitIndices, Prob, Sublattice, Subspace, Usher, WangLandau | the orbits that are generated are clusters of the crystal whose permutations form a group, so their functions can be listed (C35); an invariant of removals keeps base cluster, basis and functions; rows of the tables are sites with the same numbers of species as the base cluster, which gives the hypotheses of C26, C27 and C29; a point orbit related to every site gives a row with that site | proved | The neighbor search and the symmetry operations are arguments (as in C88); all sites are active; structure matching is not modelled. |
| C100 | Energies, means and variances of samples are those of the selected samples | ContainerStatsProps | ContainerStats, Container | the squeezed array of the selected values and its reduction along the first axis, by cases on its shape; algebra of sums; refutations for one selected value and for removed chemical potentials | partial | Holds for at least two selected values (and for any number walker by walker). With one selected value the squeezed array has lost its first axis: the mean of a vector is the mean over its components and the mean of a number raises (C100_single_refuted). Energies follow any later setting or change of the chemical potentials, but once they are removed from the ensemble the energies of earlier samples are reported as their enthalpies (C100_removed_refuted). |
| C101 | Species counts and compositions of samples count sites | ContainerStatsProps | ContainerStats, Container | an invariant of the table of arrays over species and sublattices; counting a species is counting its codes (C65); exchange of sums | partial | Holds for every non-empty selection, except one selected occupancy and a sublattice with a single species, which raises (C101_single_refuted). Means over a sublattice need two selected occupancies, as in C100. |
| C102 | Orbit factors of samples | ContainerStatsProps | ContainerStats, Container | the mask on one sample selects functions, on several it selects samples | partial | Right for one selected sample. With more, the mask of functions is applied to the samples: it raises unless there are as many samples as functions, and then sums energies of samples (C102_samples_refuted). |
| C103 | Effective cluster weights are the variances of the cluster interactions | ClusterWeightsProps | ClusterWeights, Evaluator, Kernel, OccuUtils, Prob, Sublattice, Subspace, Usher, WangLandau | functions of an orbit form one block of ids; products of site functions are labelled by one function per site and the expectation of two of them factors over sites, so different labels are orthogonal (induction on sites); the property is a sum of such products with different labels | proved | Weights for all consistent subspaces; variance of interaction tensors, independence of the orthonormal basis, and mean and variance of the property of a supercell for rational measures and site functions. Supercells in which two clusters have the same sites (aliased clusters) are outside the last theorem. |
| C104 | The site rotation matrix maps the correlations before rotations to those after them | SiteRotationProps | SiteRotation, Basis, Evaluator, OccuUtils, Sublattice, Subspace | the recorded rotation of a site is orthogonal (C81), so a factor of the matrix is the inner product of an old and a new function and the new functions are combinations of the old ones; products over sites by induction; the sum over one symmetry class of products is constant on every other class, because symmetries permute both; blocks are put together by induction | partial | Proved for orthonormal bases over uniform measures with all functions of each orbit kept; bases that are made and orthonormalised meet the hypotheses. False for a binary basis that was rotated an even number of times (the matrix negates, the functions do not change) and for subspaces from which functions were removed before the rotation. |
| C105 | Rows selected for full rank are independent and as many as possible | SelectProps | Select | every row of the factor is a combination of the columns of the features whose earlier entries vanish, so the selected columns are in echelon form and independent, by induction over elimination steps; refutations by computation on a duplicate and a zero row | partial | Independence needs a nonzero first row and a small tolerance. Exactly the rank is reached when the first rows are independent and span the others. Refuted otherwise: a duplicate structure makes a later independent row disappear, and a zero first row is selected. |
| C106 | Selection by composition returns the requested number of different samples, accepted by relative probability | SelectProps | Select | induction over rounds: the samples taken stay different and accepted, and there are more than num_samples at the end; as many as all can never be exceeded; refutation of the limit by computation | partial | The result is right whenever the loop ends. Refuted: asking for all samples never returns, and the largest probability is taken over reordered components, since np.unique works on columns. |
| C107 | Gaussian selection returns the requested number of rows, each the best aligned of those left | GaussSelectProps | GaussSelect | induction over the random vectors with the invariant that the rows left are exactly those not chosen; the argument maximum by induction; scalar products of normalised vectors are cosines | partial | Proved for two or more samples and features. Refuted: one sample or one feature always raises, as do more orthogonal samples than features. Zero rows (nan) are left out. |
| C108 | Structures and occupancies translate into each other without loss | MatchingProps | Matching | the species found at a site is the one placed there, by uniqueness of the mapping; element-wise characterisation of list comprehensions that may raise; a kept site is found again whatever its position | proved | Pymatgen's matcher is an argument (the site mapping). |
| C109 | Gram and similarity matrices of features are cosines and fractions of equal values | GramProps | Gram | the submatrix is computed element by element; Cauchy-Schwarz and its equality case from the sum of squares of C u - B v; counting close rows by induction | proved | Columns of zeros (nan) are left out. |
| C110 | Refining a structure keeps its occupancy | MatchingProps | Matching | every kept site is found again and skipped sites are vacancies; refuted by computation | partial | Proved when all vacancies are Vacancy(). Refuted otherwise: another vacancy is removed and then not found. |
| C111 | The similarity of two features does not depend on their order | GramProps | Gram | without relative tolerance closeness is symmetric; refuted with two numbers at the edge of the default tolerance | partial | Proved without relative tolerance. Refuted with the default one, which refers to the later column. |
| C112 | Energies of an ensemble are the predictions of its cluster expansion | EnsembleMakeProps | EnsembleMake, Evaluator, OccuUtils, Subspace | the parts of the processor are those of C29 and C28; the prediction is unfolded to the same correlations by the round trip of C108, then dot products are split at the last coefficient; changes from C30 | proved | exact rationals instead of floats; flips at sites that belong to a cluster; symmetric Ewald matrix |
| C113 | A sublattice survives its dictionary | EnsembleDictProps | EnsembleDict, Bias, Ensemble, Kernel, OccuUtils, Prob, SiteTable, Sublattice, TableFlip, Usher | sites stay sorted through every step and every split, and sorting sorted sites changes nothing | proved | dictionary of the site space taken as exact |
| C114 | A saved ensemble is restored with the same features | EnsembleDictProps | EnsembleDict, Bias, Ensemble, Kernel, OccuUtils, Prob, SiteTable, Sublattice, TableFlip, Usher | a change of sublattices that keeps their activity keeps the table of potentials, so that reading rebuilds the same ensemble; refuted by unfreezing (reading raises) and freezing (other features) a whole sublattice | partial | false after a whole sublattice was frozen or unfrozen: see the refuted theorems |
| C115 | Orbits and functions of a subspace by size and diameter | SubspaceViewsProps | SubspaceViews, Evaluator, OccuUtils, Subspace | the labels of reachable subspaces (C33) place each function in one orbit; selections are filters characterised by membership and order | proved |  |
| C116 | Comparison of subspaces sees removals | SubspaceViewsProps | SubspaceViews, Evaluator, OccuUtils, Subspace | removing changes the number of functions of some orbit of the same place, or the number of orbits of a size | proved |  |
| C117 | Subspaces that compare equal have the same orbits | SubspaceViewsProps | SubspaceViews, Evaluator, OccuUtils, Subspace | for lists of orbits of the same length the comparison goes through all; refuted by two subspaces with the same number of functions of which one has more orbits, where zip stops early | partial | False of the code: the comparison zips the two lists of orbits, so a subspace can equal one with more orbits and as many functions (C117_equal_refuted), and equality is not transitive (C117_transitive_refuted). Proved: subspaces with equal numbers of orbits that compare equal have the same orbits in the same order, numbers of functions and external terms (C117_equal_partial). |
| C118 | Decorations of a Potts subspace are all labelings in symmetry classes | PottsProps | Potts, Evaluator, OccuUtils, Subspace | the classes of codes are those of C35; indices of species are mapped to species injectively, onto all labelings, and commute with permutations; the labels of C33 find the class; at least two classes because the all-first and all-second labelings are inequivalent | proved |  |
| C119 | Removing the last cluster takes one decoration from every orbit | PottsProps | Potts, Evaluator, OccuUtils, Subspace | from C118 when cutoffs of larger clusters are given; refuted for point terms only, where generation returns early | partial | False of the code: with cutoffs {} or {1: x} generation returns before the last decorations are removed (C119_points_refuted). Proved when cutoffs of larger clusters are given (C119_removed_partial). |
| C120 | The score of a special structure is the score of its supercell | SqsMatricesProps, SqsScoreProps | SqsScore, Sublattice | the dictionary of processors is keyed by sorted rows, which are equal exactly for permuted rows; the way from occupancies to structures and back is C108 | proved |  |
| C121 | Scores of special structures refer to the target given to the generator | SqsScoreProps | SqsScore, Sublattice | the constructor passes its arguments to the processors it makes; refuted for processors given to it, which keep their own target | partial | False of the code: from_processors checks the length of a target and then ignores it, as it does weights and tolerances (C121_processors_refuted). Proved for generators that make their processors (C121_target_partial). |
| C122 | Structures are scored for every description of their supercell | SqsScoreProps | SqsScore, Sublattice | from C120 for permuted rows; refuted by another basis of the same lattice, which is not a key | partial | False of the code: processors are looked up by the sorted rows of the matrix, so other lattice vectors of the same supercell raise a KeyError (C122_lattice_refuted). Proved for rows in another order (C122_rows_partial). |
| C123 | What a composition space remembers never changes its answers, and its dictionary keeps all of it | SpaceStateProps | SpaceState, CompSpace, IntMath, Kernel, OccuUtils, Prob, SiteTable, Sublattice, Usher | every call keeps the invariant that each stored result is the value of a space that remembers nothing; integer rows are their own integer multiples, so the constraints read back are equal | proved |  |
| C124 | The feature matrix of a wrangler belongs to its structures and its subspace | WranglerHeapProps | WranglerHeap | invariant over histories in which entries belong to one wrangler; refuted by an entry given to two wranglers, by entries appended from another subspace and by a change of subspace that raises | partial | C124_features_partial holds for histories in which an entry belongs to one wrangler, appended entries were processed with the same subspace and changes of subspace go through and keep the primitive cell. Refuted without these: an entry given to two wranglers (C124_shared_refuted), entries appended from another subspace (C124_appended_refuted), a change that raises (C124_changed_refuted). C124_loaded has no condition. |
| C125 | Properties set for the structures are the properties read | WranglerHeapProps | WranglerHeap | invariant that distinct entries have distinct dictionaries of properties; refuted by one dictionary given with two entries | partial | C125_set_partial holds when every entry has a dictionary of its own and no wrangler holds an entry twice. Refuted otherwise: the dictionary given with an entry is kept, so one dictionary given with two entries is shared (C125_dictionary_refuted). |
| C126 | Seeds determine the samples of flips and swaps, walker by walker | SeededRunProps | SeededRun, Prob | the heap of generators splits into one cell per walker: a simulation by independent chains, by induction over steps, samples, runs and walkers | proved |  |
| C127 | Seeds determine the samples of composite, multi-step and table flip samplers | SeededRunProps | SeededRun, Prob | table flips that always have a flip use the generator of the kernel only; refuted by two processes for composites, multi-steps and the swaps of table flips | partial | False of the code: steps of composites and multi-steps given by name, and the swapper of table flips, are built without the generator of the kernel (mcusher.py:263-267, 350-354, 540), so they take a seed from the operating system. Proved for table flips that always have a flip for the occupancies of the run; the plain proposals are C126. |
| C128 | Recorded steps of a composite match their weights | SeededRunProps | SeededRun, Prob | induction over the list; the constructor records every step twice | partial | False of the code: the constructor of Composite appends the specification of every step once more after add_mcusher did (mcusher.py:355-356). Proved for steps added later. |
| C129 | Multi-steps of mixed steps are symmetric | UsherSymProps | OccuUtils, Prob, Sublattice, Usher | multi-steps of one sub-step by unfolding the loop; concrete refutation with two sub-steps on three sites | partial | Proved for multi-steps of one sub-step; unmixed multi-steps are in C63. Refuted with two sub-steps over a composite of flips and swaps: 7/36 one way and 1/9 back. |
| C130 | Saved processors are loaded as they were | SavedModelsProps | SavedModels, Evaluator, OccuUtils, Subspace | invariant of processors under what may happen to a shared subspace (tables asked for stay, the evaluator data are those of the orbits); the constructor finds the cached table again; induction over the parts of composites | proved |  |
| C131 | Coefficients given to a decomposition processor are loaded | SavedModelsProps | SavedModels, Evaluator, OccuUtils, Subspace | the same invariant; the loaded coefficients are the multiplicities of orbits | partial | Proved when the given coefficients are the multiplicities of orbits. False otherwise: the dictionary has them, but from_dict does not pass them on, so that the loaded processor uses the multiplicities (C131_given_refuted, for all such processors). |
| C132 | Copies of expansions are equal | SavedModelsProps | SavedModels, Evaluator, OccuUtils, Subspace | invariant over histories of an expansion: interaction tensors exist, and the feature matrix is that of the regression data while no coefficient was pruned | proved |  |
| C133 | Pruned expansions can be copied | SavedModelsProps | SavedModels, Evaluator, OccuUtils, Subspace | from the invariant of C132; the length check of the constructor | partial | Proved without regression data, when the coefficients still fit the subspace (see C56). False with regression data as soon as one coefficient is pruned: the constructor compares with the original feature matrix and raises (C133_data_refuted, for all such expansions). |
| C134 | Processors are independent of later changes of the expansion | SavedModelsProps | SavedModels, Evaluator, OccuUtils, Subspace | unfolding; the length check of the constructor on the loaded subspace | partial | Proved that values stay the same. False for saving: the processor is saved with the pruned subspace and its original coefficients, which the constructor refuses (C134_saved_refuted, whenever functions were removed). |
| C135 | Making a processor leaves the subspace | SavedModelsProps | SavedModels, Evaluator, OccuUtils, Subspace | unfolding; the length of correlation vectors from the writes of the evaluator | partial | Proved for expansion and decomposition processors, and for Ewald processors when the subspace has an external term. False otherwise: a default term is added to the subspace of the caller, after which an expansion on it can not be copied and predictions raise (C135_term_refuted). |
| C136 | Exact processors have no drift | DriftProps | Drift, Evaluator, Kernel, OccuUtils, Prob, Sublattice, Usher | induction over the draws with the invariant that the occupancy is allowed; each flip by the difference theorems of C26, C27, C28 and C30 | proved |  |
| C137 | The drift check finds wrong changes | DriftProps | Drift, Evaluator, Kernel, OccuUtils, Prob, Sublattice, Usher | every allowed occupancy and flip of the first sites is drawn by some numbers; counterexamples with other sites and with one species | partial | C137_found_partial: a wrong change of one of the first sites is found. False of the code in general: site indices are drawn below the number of primitive cells, so other sites are never flipped (C137_unseen, C137_sites_refuted), and a drawn site with one species raises (C137_raises_refuted). |
| C138 | Copied and loaded clusters have the same species | ClusterSpeciesProps | ClusterSpecies, Domain | making spaces uniform twice is the same as once (fractions compared with 0.99); removing one default vacancy leaves the fraction that the site space fills again; counterexamples by computation | partial | Copies of clusters made from sites with fewer than 99 species (C138_copy_partial), loaded clusters without vacancies (C138_load_partial), site spaces of loaded clusters with default vacancies (C138_vacancies_partial). False of the code in general: vacancies are dropped from the species by loading (C138_dropped_refuted), charged ones come back as default ones (C138_charged_refuted), amounts given with site spaces are not copied (C138_measure_refuted). |
| C139 | Files of samples hold every traced value, also after a failed write | TraceFilesProps | TraceFiles | writes keep names, shapes, lengths and the rows before the first new one (invariant over the loop of traced values); opened files read as before and have room; induction over the containers | proved |  |
| C140 | Samples in a file belong together | TraceFilesProps | TraceFiles | the same invariants; counterexamples by computation | partial | C140_written_partial: if the container has all traced values of the file and saving returns, all that is read was written. False of the code in general: only the shape of occupancies is compared, so traced values of the file that the container does not have are read although they were not written (C140_values_refuted), and samples of another ensemble are added (C140_ensembles_refuted). |
| C141 | What is read from an expansion belongs to its coefficients | CachedExpansionProps | CachedExpansion, Evaluator, Kernel, OccuUtils, Prob, Sublattice, Subspace, Usher, WangLandau | invariant: what is cached is what would be computed now; pruning drops both caches before the evaluator is set again; values by the lemmas on effective interactions, weights and decompositions | proved |  |
| C142 | Assigned coefficients reach everything that is read | CachedExpansionProps | CachedExpansion, Evaluator, Kernel, OccuUtils, Prob, Sublattice, Subspace, Usher, WangLandau | pruning by coefficients restores the invariant; reads after an assignment equal those before; counterexamples by computation | partial | Proved: after any assignment, pruning by coefficients makes everything that is read belong to the coefficients again (C142_prune_partial), and until then every read gives what it gave before (C142_stale). Refuted: effective interactions, tensors, weights and interactions of structures stay those of the old coefficients (C142_reads_refuted), and pruning by effective interactions then removes functions by the old ones (C142_prune_refuted). |
| C143 | Special structures have the composition of the disordered structure | SqsCompositionProps | SqsComposition, Encoding, OccuUtils, Prob, Sublattice, Usher | swaps of active sites keep the numbers of every code on each sublattice; induction over the search for all buffers and recorded occupancies; the random start by C87 with the compositions that the site spaces were made from | proved |  |
| C144 | A processor finds the sublattices of its structure, always the same | ProcessorSpacesProps | ProcessorSpaces, Encoding, OccuUtils, Sublattice | the set keeps one space for each list of species (invariant over additions); sorted lists with the same elements are equal, for the lexicographic order; uniform spaces have the same species; then C61 | proved |  |
| C145 | Written and implied vacancies give the same sublattice | ProcessorSpacesProps | ProcessorSpaces, Encoding, OccuUtils, Sublattice | agreement of measures and of written vacancies gives agreement of compositions; counterexample for all hash functions that tell the two compositions apart | partial | Proved when all sites with the same species write their vacancies in the same way. Refuted otherwise: equal site spaces with different hashes are both kept, and every site is in two sublattices. |
| C146 | Flips and swaps reach exactly the occupancies that they should | ReachProps | Basis, Evaluator, Kernel, OccuUtils, Prob, SiteRotation, Sublattice, Subspace, Usher | induction on the number of differing sites: a legal flip or swap removes one, and every legal one has positive probability by C05 and C06; the other direction by induction on the chain | proved |  |
| C147 | The Boltzmann distribution is the only stationary distribution of Metropolis sampling | ReachProps | Basis, Evaluator, Kernel, OccuUtils, Prob, SiteRotation, Sublattice, Subspace, Usher | detailed balance (C11) makes the ratio to the Boltzmann weights harmonic; the maximum spreads along reachable paths (C146); finite by enumeration of words over the codes | proved |  |
| C148 | Averages over runs of the Metropolis sampler converge to averages of the ensemble | AveragesProps | Basis, Evaluator, Kernel, OccuUtils, Prob, SiteRotation, Sublattice, Subspace, Usher | averages of expectations change little in a step (telescoping sum); a function that changes little is almost constant, with a factor from the probabilities along a path (C146); the weights keep averages by detailed balance (C11) | proved |  |
| C149 | Random sampling with thinning can record every occupancy | ThinningProps | Container, Kernel, OccuUtils, Prob, Sampler, Sublattice, Usher | a path to the occupancy (C146) is extended by flips there and back to a multiple of an odd interval; for even intervals and two species the parity of the number of differing sites is an invariant of the samples | partial | Proved for odd thinning intervals. Refuted for even ones when all active sublattices have two species: every step changes the parity of the number of sites that differ from the start and all steps are accepted, so occupancies with odd differences are never recorded, although the kernel's documentation says that all states have the same probability. |
| C150 | The centroid composition is the allowed composition closest to the mean vertex | CentroidProps | Centroid, CompSpace, IntMath, Kernel, OccuUtils, Prob, SiteTable, Sublattice, Usher | the constraints of the integer program hold exactly at the coordinates of allowed compositions (C95), the cost is the squared distance, and rounding undoes the deviation of the solver | proved |  |
| C151 | Reaction formulas tell exactly what a flip does and are balanced | ReactionProps | Reaction, CompSpace, IntMath, Kernel, OccuUtils, Prob, SiteTable, Sublattice, Usher | the loops over sublattices list the signed entries of the vector in order; the sums of the sides differ by the sums of the blocks of the vector, which vanish for integer solutions of the homogeneous equations | proved |  |
| C152 | Removing an ordering from an orbit removes its correlation function and nothing else | ComboRemovalProps | ComboRemoval, Evaluator, OccuUtils, Subspace | the functions are classes of a group action (C35), a property that removal keeps; a class holds the given ordering exactly if its members are equivalent to it; tensors are computed per function | proved |  |
<!-- table ends -->

## Wrong programs

`seeded/run.py` applies edits to a scratch copy of the model, each like a
realistic bug in smol, and rebuilds the theorems of the property whose claim
the edit breaks. A proof that no longer goes through is recorded, replaced by
`Admitted` in the scratch copy only, and the build goes on, so that all failing
proofs are seen. `seeded/LOG.jsonl` has one line per attempt:

* `definition`, `edit`, `breaks` - what was edited and which claim it breaks;
* `lemmas_failed` - lemmas whose own proof failed;
* `theorems_failed` - property theorems whose own proof failed;
* `theorems_dependent` - property theorems that use a failed lemma (from
  `Print Assumptions`);
* `theorems_blocked` - property theorems in files that did not compile for
  another reason (`stopped_at`);
* `caught`, `tightened` - whether a theorem of the claim failed, and which
  theorems were strengthened afterwards;
* `recheck` - a later run of the same edit against the grown model.

Lines without `lemmas_failed` come from an earlier version of the script that
stopped at the first failing file.
