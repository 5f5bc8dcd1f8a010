{
 "C01": "induction over the step; the table lookup of a step is split into removals and additions",
 "C02": "counting lemma over a partition of the sites",
 "C03": "invariant preserved by every operation, induction over the history",
 "C04": "specification of one part of a split, then induction over the parts; refutation by a concrete light vacancy",
 "C05": "outcomes of the random program listed exactly; symmetry by exchanging outcomes",
 "C06": "counting of pairs of sites with different species; swaps preserve every count",
 "C07": "induction over the number of sub-steps with the threaded occupancy",
 "C08": "induction over additions, total weight stays one",
 "C09": "row arithmetic in Z; a flip of section k adds the k-th row to the counts",
 "C10": "product of combination counts; ratio of forward and reverse proposals equals exp of the returned factor",
 "C11": "case split on the exponent, exp/ln lemmas; detailed balance from the exact a-priori factor",
 "C12": "unfolding of a step with an arbitrary draw; accepted and rejected cases",
 "C13": "induction over walkers, steps and thinning; invariant: trace = recomputed features",
 "C14": "invariant over buffers with aliasing; refutation by a run of two steps",
 "C15": "induction over assignment histories; annealing as a fold of runs",
 "C16": "window invariant and histogram conservation, induction over steps",
 "C17": "invariant over modification factors and flatness checks",
 "C18": "running-mean identity by induction over visits; refutation for longer periods",
 "C19": "telescoping sums over the sites of a step, also repeated",
 "C20": "state-machine invariant over operations",
 "C21": "telescoping sums; refutation with a repeated site",
 "C22": "refinement of the container to an append-only list",
 "C23": "induction over chunks; refutation with a remainder",
 "C24": "list lemmas for selections; argmin specification",
 "C25": "round trip of the container state; refutation with unused rows",
 "C26": "double counting of clusters per site; finite sums over writes",
 "C27": "as C26 for interaction tensors",
 "C28": "double sum over ordered pairs, ring identities per flip, induction over flips",
 "C29": "both processors reduced to the same mean of tensor entries",
 "C30": "sums over processors; refutations with ragged features",
 "C31": "round trip by position lemmas for lists without duplicates",
 "C32": "commutation of writes to distinct slots; induction over interleavings",
 "C33": "invariant of the subspace over removals, basis changes and table requests",
 "C34": "strides and C-order positions; induction over dimensions",
 "C35": "group action on multi-indices; orbits of equal size",
 "C36": "partition of unity of indicator functions; refutation with a symmetric pair",
 "C37": "partition proof for the grouping loop",
 "C38": "round-count argument: closure is reached after at most as many rounds as rows",
 "C39": "explicit enumeration lemma; reduction of any matrix by column operations; uniqueness of the reduced form",
 "C40": "strong induction on the absolute value",
 "C41": "termination measure on the pivot; product of elementary matrices",
 "C42": "change of variables by the unimodular factors; kernel description",
 "C43": "induction over dimensions with linear-program bounds as oracle",
 "C44": "arg-max and partition arguments on lists",
 "C45": "linear algebra over Qc: span and kernel of the basis; rounding distance argument",
 "C46": "parser as a fold over words; semantic invariant of the accumulated row",
 "C47": "equivalence classes of rounded rows",
 "C48": "invariant over operation histories",
 "C49": "selection loop specified by minima of classes",
 "C50": "bijection between allowed occupancies and feasible 0/1 vectors",
 "C51": "exactness of the product linearisation, induction over products",
 "C52": "values of terms against the processors' features; optimality transferred along the bijection of C50",
 "C53": "loop invariant with a store of trace objects; refutations for continued runs",
 "C54": "specification of mean and variance over R, first-candidate search",
 "C55": "features as absolute differences; longest prefix of orbits within tolerance",
 "C56": "alignment invariant between functions and coefficients; refutations",
 "C57": "lattice translations modulo tolerance, triangle inequality, matching of point sets",
 "C58": "case analysis of the zip comparison; refutation by a prefix",
 "C59": "heap of attribute values; fold over objects",
 "C60": "induction over words and characters",
 "C61": "grouping of sites by site space; refutation",
 "C62": "sum of the sorted composition; refutation",
 "C63": "changes of names commute with proposals: for flips the two species of every site trade names, for swaps the sites of pairs trade places (any result of swaps on disjoint sites is an involution); commuting is kept by multi-steps and composites, by induction over the loop and the structure of the proposer",
 "C64": "refutation for all inputs",
 "C65": "position lemmas",
 "C66": "state-machine counterexample",
 "C67": "exponential of entropy differences",
 "C68": "invariant while no hop is accepted; refutation by a run",
 "C69": "normalisation of probabilities; refutation for all inputs",
 "C70": "refutation for all processors",
 "C71": "permutation invariance of finite sums",
 "C72": "round trip of subspace records; refutation for Potts subspaces",
 "C73": "round trip of processor records; refutation",
 "C74": "membership of rows in lists",
 "C75": "normalised positive weights over R, monotonicity of exp",
 "C76": "rows of constraints evaluated on 0/1 vectors",
 "C77": "solver as an oracle; cached occupancy as state",
 "C78": "continued-fraction convergents: determinant invariant, best-approximation argument",
 "C79": "linear independence over R: polynomial roots, orthogonality of trigonometric sums, triangular indicators; independent families of n vectors span",
 "C80": "QR factorisation as an argument with its defining equations; first column forced to be constant; induction over repeated orthonormalisations",
 "C81": "the rotation matrix is I plus rank two and orthogonal; invariant over any list of calls; refutations for all two-species bases and for index pairs",
 "C82": "trigonometric sums over R; tolerance bounds",
 "C83": "record round trip over an inductive type of histories; refutation for all fresh bases",
 "C84": "invariant of a loop over positions in a store (which are rotated, which untouched); refutation by two site spaces",
 "C85": "induction over sublattices; the probability of one occupancy factorises over independent draws",
 "C86": "invariant over attempts (valid, charge as computed); reachability by induction on the number of sites that differ from a neutral arrangement; refutations by computed cases",
 "C87": "induction over species and sublattices: sets of sites drawn without replacement, probability of one arrangement as a multinomial; rounding is exact within the tolerance; refutations by computed cases",
 "C88": "invariant over the loop over sizes (sound, pairwise inequivalent, complete); a cluster of size k+1 is reached from one of size k by the orbit that represents it; the sphere reaches by the triangle inequality for the metric; refutations by a triclinic lattice with a proved list of neighbors",
 "C89": "counting images: the images of a cluster under a finite group, grouped by equality up to translation, have equal sizes; the permutations compose",
 "C90": "case analysis over the dictionary; refutations by computed cases",
 "C91": "lattice points of the cell represent all lattice vectors modulo the supercell (floor of the fractional coordinates, corners of the box); each site has exactly one match; equivalent clusters modulo supercell vectors correspond to pairs of a cluster and a point",
 "C92": "the operation permutes the rows of orbit indices up to the order of the sites; the change of order is a permutation of the cluster, under which the sum over a group of bit combinations is invariant; composed from C35, C89 and C91",
 "C93": "Steinitz exchange over the integers (decidable dependence); invariant of the optimisation loop; a pure lattice of rank two is kept because two independent short vectors span it; refutation for three vectors with every exact rank and every grid",
 "C94": "the candidates are differences of grid points; the extension stops when every point has a neighbour or all candidates are used, and the nearest other point of each disconnected point is a candidate; induction over the distance in one dimension; refutations by two spaces with inequality constraints",
 "C95": "invariant of the store: keys are coprime and grids are what a fresh enumeration gives, so that a matching key is unique; completeness from C43 and from the lattice of the basis (C45, C93); scaling of base solutions, points and constraints",
 "C96": "subsets of the base cluster are compared with the clusters of the sub-orbit through the characterisation of C89; positions and combinations; ranges of sizes; refutations by a cubic example",
 "C97": "equations between symmetry images are solved in the group; the sub-orbit's own base cluster is always compared with the exact lattice vector, because the centroid of the subset differs from its centroid by an integer; permutations of both base clusters are absorbed by the closure of the groups of bit combinations (C35)",
 "C98": "double counting: the sum over pairs of lattice points of the two supercells is evaluated by rows and by columns, each of which is a permutation of the points of one supercell; the operation permutes the clusters of the orbit up to translations and the permutations of the orbit, under which the functions are invariant",
 "C99": "the orbits that are generated are clusters of the crystal whose permutations form a group, so their functions can be listed (C35); an invariant of removals keeps base cluster, basis and functions; rows of the tables are sites with the same numbers of species as the base cluster, which gives the hypotheses of C26, C27 and C29; a point orbit related to every site gives a row with that site",
 "C100": "the squeezed array of the selected values and its reduction along the first axis, by cases on its shape; algebra of sums; refutations for one selected value and for removed chemical potentials",
 "C101": "an invariant of the table of arrays over species and sublattices; counting a species is counting its codes (C65); exchange of sums",
 "C102": "the mask on one sample selects functions, on several it selects samples",
 "C103": "functions of an orbit form one block of ids; products of site functions are labelled by one function per site and the expectation of two of them factors over sites, so different labels are orthogonal (induction on sites); the property is a sum of such products with different labels",
 "C104": "the recorded rotation of a site is orthogonal (C81), so a factor of the matrix is the inner product of an old and a new function and the new functions are combinations of the old ones; products over sites by induction; the sum over one symmetry class of products is constant on every other class, because symmetries permute both; blocks are put together by induction",
 "C105": "every row of the factor is a combination of the columns of the features whose earlier entries vanish, so the selected columns are in echelon form and independent, by induction over elimination steps; refutations by computation on a duplicate and a zero row",
 "C106": "induction over rounds: the samples taken stay different and accepted, and there are more than num_samples at the end; as many as all can never be exceeded; refutation of the limit by computation",
 "C107": "induction over the random vectors with the invariant that the rows left are exactly those not chosen; the argument maximum by induction; scalar products of normalised vectors are cosines",
 "C108": "the species found at a site is the one placed there, by uniqueness of the mapping; element-wise characterisation of list comprehensions that may raise; a kept site is found again whatever its position",
 "C109": "the submatrix is computed element by element; Cauchy-Schwarz and its equality case from the sum of squares of C u - B v; counting close rows by induction",
 "C110": "every kept site is found again and skipped sites are vacancies; refuted by computation",
 "C111": "without relative tolerance closeness is symmetric; refuted with two numbers at the edge of the default tolerance",
"C112":"the parts of the processor are those of C29 and C28; the prediction is unfolded to the same correlations by the round trip of C108, then dot products are split at the last coefficient; changes from C30",
"C113":"sites stay sorted through every step and every split, and sorting sorted sites changes nothing",
"C114":"a change of sublattices that keeps their activity keeps the table of potentials, so that reading rebuilds the same ensemble; refuted by unfreezing (reading raises) and freezing (other features) a whole sublattice",
"C115":"the labels of reachable subspaces (C33) place each function in one orbit; selections are filters characterised by membership and order",
"C116":"removing changes the number of functions of some orbit of the same place, or the number of orbits of a size",
"C117":"for lists of orbits of the same length the comparison goes through all; refuted by two subspaces with the same number of functions of which one has more orbits, where zip stops early",
"C118":"the classes of codes are those of C35; indices of species are mapped to species injectively, onto all labelings, and commute with permutations; the labels of C33 find the class; at least two classes because the all-first and all-second labelings are inequivalent",
"C119":"from C118 when cutoffs of larger clusters are given; refuted for point terms only, where generation returns early",
"C120":"the dictionary of processors is keyed by sorted rows, which are equal exactly for permuted rows; the way from occupancies to structures and back is C108",
"C121":"the constructor passes its arguments to the processors it makes; refuted for processors given to it, which keep their own target",
"C122":"from C120 for permuted rows; refuted by another basis of the same lattice, which is not a key",
"C123":"every call keeps the invariant that each stored result is the value of a space that remembers nothing; integer rows are their own integer multiples, so the constraints read back are equal",
"C124":"invariant over histories in which entries belong to one wrangler; refuted by an entry given to two wranglers, by entries appended from another subspace and by a change of subspace that raises",
"C125":"invariant that distinct entries have distinct dictionaries of properties; refuted by one dictionary given with two entries",
"C126":"the heap of generators splits into one cell per walker: a simulation by independent chains, by induction over steps, samples, runs and walkers",
"C127":"table flips that always have a flip use the generator of the kernel only; refuted by two processes for composites, multi-steps and the swaps of table flips",
"C128":"induction over the list; the constructor records every step twice",
"C129":"multi-steps of one sub-step by unfolding the loop; concrete refutation with two sub-steps on three sites",
"C130":"invariant of processors under what may happen to a shared subspace (tables asked for stay, the evaluator data are those of the orbits); the constructor finds the cached table again; induction over the parts of composites",
"C131":"the same invariant; the loaded coefficients are the multiplicities of orbits",
"C132":"invariant over histories of an expansion: interaction tensors exist, and the feature matrix is that of the regression data while no coefficient was pruned",
"C133":"from the invariant of C132; the length check of the constructor",
"C134":"unfolding; the length check of the constructor on the loaded subspace",
"C135":"unfolding; the length of correlation vectors from the writes of the evaluator",
"C136":"induction over the draws with the invariant that the occupancy is allowed; each flip by the difference theorems of C26, C27, C28 and C30",
"C137":"every allowed occupancy and flip of the first sites is drawn by some numbers; counterexamples with other sites and with one species",
"C138":"making spaces uniform twice is the same as once (fractions compared with 0.99); removing one default vacancy leaves the fraction that the site space fills again; counterexamples by computation",
"C139":"writes keep names, shapes, lengths and the rows before the first new one (invariant over the loop of traced values); opened files read as before and have room; induction over the containers",
"C140":"the same invariants; counterexamples by computation",
"C141":"invariant: what is cached is what would be computed now; pruning drops both caches before the evaluator is set again; values by the lemmas on effective interactions, weights and decompositions",
"C142":"pruning by coefficients restores the invariant; reads after an assignment equal those before; counterexamples by computation",
"C143":"swaps of active sites keep the numbers of every code on each sublattice; induction over the search for all buffers and recorded occupancies; the random start by C87 with the compositions that the site spaces were made from",
"C144":"the set keeps one space for each list of species (invariant over additions); sorted lists with the same elements are equal, for the lexicographic order; uniform spaces have the same species; then C61",
"C145":"agreement of measures and of written vacancies gives agreement of compositions; counterexample for all hash functions that tell the two compositions apart",
"C146":"induction on the number of differing sites: a legal flip or swap removes one, and every legal one has positive probability by C05 and C06; the other direction by induction on the chain",
"C147":"detailed balance (C11) makes the ratio to the Boltzmann weights harmonic; the maximum spreads along reachable paths (C146); finite by enumeration of words over the codes",
"C148":"averages of expectations change little in a step (telescoping sum); a function that changes little is almost constant, with a factor from the probabilities along a path (C146); the weights keep averages by detailed balance (C11)",
"C149":"a path to the occupancy (C146) is extended by flips there and back to a multiple of an odd interval; for even intervals and two species the parity of the number of differing sites is an invariant of the samples",
"C150":"the constraints of the integer program hold exactly at the coordinates of allowed compositions (C95), the cost is the squared distance, and rounding undoes the deviation of the solver",
"C151":"the loops over sublattices list the signed entries of the vector in order; the sums of the sides differ by the sums of the blocks of the vector, which vanish for integer solutions of the homogeneous equations",
"C152":"the functions are classes of a group action (C35), a property that removal keeps; a class holds the given ordering exactly if its members are equivalent to it; tensors are computed per function"
}
