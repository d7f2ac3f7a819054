{
 "C01": "`get_relation` loop over binary64 objective vectors; case analysis on the running flag, order lemmas for SFcompare",
 "C02": "vectorised matrix against the loop; entrywise equality",
 "C03": "counting algorithm (dominated lists, counters, fronts) as fuelled loop; invariant on counters, peeling specification, minimal elements of finite transitive irreflexive relations",
 "C04": "lexsort oracle, sequential/binary search with fuel; invariant: prefix correctly layered, domination downward closed in the front index",
 "C05": "comparison matrices and both sorts; counting lemma, peeling",
 "C06": "n-ary tree, check_tree; structural invariant of the tree; refutation by duplicates",
 "C07": "bi-objective sweep; sweep invariant for distinct first objectives; refutation by ties",
 "C08": "direct model; order lemmas",
 "C09": "stopping loop over fronts; induction over fronts",
 "C10": "feasibility split, fronts loop, merge; permutation/NoDup reasoning",
 "C11": "fronts loop with crowding as oracle; sortedness of argsort, prefix-of-fronts invariant",
 "C12": "constrained ranks from two sorts; same technique",
 "C13": "rank := index array; slot-wise characterisation and refutation witness",
 "C14": "slot-wise comparison; induction over generations",
 "C15": "rationals and binary64; order reasoning; absorption refutation",
 "C16": "rationals; induction on the constraint list",
 "C17": "record with cache; induction over operation lists; refutation",
 "C18": "heap of individuals, problem as oracle; induction over call histories",
 "C19": "retry loop with mating oracle; induction on the loop",
 "C20": "duplicate filter with an arbitrary distance predicate; induction",
 "C21": "list functions, arbitrary segment; Permutation proofs",
 "C22": "adjacency sets; invariant of the ERX loop",
 "C23": "list reversal of a segment; Permutation",
 "C24": "masks; positionwise exchange, counting",
 "C25": "shape and parent bookkeeping; direct",
 "C26": "clamping over binary64 with oracle arithmetic, rationals for computing repairs, reals for SBX/PM; order reasoning",
 "C27": "rationals, Flocq rounding for random sampling; monotonicity of rounding; refutations in SpecFloat",
 "C28": "integer rounding; order reasoning",
 "C29": "index matrices, comparison chains; counting in concatenated permutations",
 "C30": "loop invariants for DE selection",
 "C31": "fill loop; refutation and partial result",
 "C32": "quicksort partition invariant; Permutation and sortedness",
 "C33": "bubble sort with random decisions; Permutation, sortedness when decisions are deterministic",
 "C34": "termination criteria and run loop, algorithm hooks as oracle; induction on steps; Flocq for the ratio",
 "C35": "termination trees; induction",
 "C36": "sliding window as list; induction over histories",
 "C37": "rationals; case analysis; refutation",
 "C38": "algorithm record with arbitrary hooks; equality of state transformers, run invariant",
 "C39": "Result assembly; case analysis",
 "C40": "optimum filter; argmin and non-domination lemmas",
 "C41": "archive fold; invariant over all histories, truncation oracle",
 "C42": "survival plus merge fold; invariant over generations",
 "C43": "heap and arrays of references; list induction",
 "C44": "association lists and strings; induction on trees",
 "C45": "dictionary update on object trees; induction on paths",
 "C46": "recursion; combinatorics of compositions",
 "C47": "rationals with monotone rounding; order reasoning; refutations",
 "C48": "memo table; induction over call sequences",
 "C49": "cumulative sums, clearing loop; order reasoning, termination measure",
 "C50": "sort, gaps, scatter; order-independence through sorted permutations",
 "C51": "free programs over named generators; closure lemmas for reproducibility; refutations",
 "C52": "row-wise evaluation and stacking; list lemmas",
 "C53": "delta/tolerance criteria; induction over histories",
 "C54": "object graph walk; induction",
 "C55": "rationals; order reasoning",
 "C56": "greedy selection loop; argmax/argmin lemmas; refutation",
 "C57": "layers; induction",
 "C58": "sort-based projection; variational characterisation",
 "C59": "niching loop with permutations/shuffles as oracles; loop invariant giving a sequential greedy specification; fronts through the sorter contract of C09; association in exact reals (projection onto a line)",
 "C60": "same model; refutation by a five point population",
 "C61": "M_Norm.v models the update with an arbitrary linear solver; induction over the history; Thm_Norm.v.",
 "C62": "M_Norm.v in exact arithmetic with the array type (integer arrays truncate); Thm_Norm2.v; equal bounds and integer arrays are refuted.",
 "C63": "M_Norm.v zero_to_one_eval; refuted in Thm_Norm2.v (do calls normalize), with a proof of what it evaluates instead.",
 "C64": "M_Direct.v models set-up, selection (with truncation) and division; invariant over reachable archives in Thm_Direct.v. Refuted: after truncation the boxes no longer cover; more than n_max_candidates candidates starve the largest box; fixed variables start out of bounds.",
 "C65": "M_Indicator.v in exact reals (moocore's igd functions under a contract); Thm_Indicator.v. Plain IGD contradicting dominance and the value 0 of an empty set are recorded as refutations.",
 "C66": "M_MOEAD models the neighbourhoods, the parent selection, the replacement on top of the decomposition model of C47, the generator protocol of LoopwiseAlgorithm as a state machine, and the parallel variant; invariants by induction over the sequence of offspring.",
 "C67": "M_Bracket in the reals; induction over the iterations with the golden ratio equation r*r = 1 - r; counterexamples for the quadratic interpolation.",
 "C68": "M_Wolfe in the reals with fuel for the unbounded zoom; induction on the fuel; a polynomial counterexample with its derivative.",
 "C69": "M_Nelder: generators as a free monad whose evaluations are arbitrary; invariant of a step by case analysis of its branches, induction over the steps; counterexamples by running the model.",
 "C70": "M_Pattern on the generators of M_Nelder; induction over the variables of an exploration and over the iterations.",
 "C71": "M_Wrappers models do() of the wrapper over dictionaries whose arrays carry their dimension; values and keys proved for all problems, non-dominance correspondence from the violation theorems, exceptions by computation.",
 "C72": "M_Wrappers; reshape to F.shape modelled so that the failure with several objectives is visible.",
 "C73": "M_Wrappers; equivalence of the constraint rows with box membership, additivity of the violation.",
 "C74": "M_Wrappers: state machine of the shared and the adapted configuration and the two evaluation counters; induction over the iterations.",
 "C75": "M_Static on top of M_Decomp.",
 "C76": "M_Static on top of M_Evaluate.",
 "C77": "M_Swarm: generic individuals with a view; induction over generations using that strictly-better is a weak order.",
 "C78": "M_Swarm (exact rational arithmetic), M_SwarmR (inertia over the reals); replacement via C77, optimum via C40, case analysis for the adaptation.",
 "C79": "M_ES: constructor sizes, _advance, _set_optimum, offspring coordinate by coordinate; induction over generations with the survival contract of C42 and the filter contract of C40; concrete counterexamples for the exceptions.",
 "C80": "M_SMS over the sorter contract of C09; hypervolume specified (S_SMS) as the number of covered unit cells of a lattice; moocore.hv_contributions enters as a contract; optimality by case split on the cut front (first front: exchange argument; later front: dominated points cover nothing new); counterexample computed.",
 "C81": "M_SPEA2 models _do and the truncation on positions with distances in Q plus infinity; S_SPEA2 defines strengths, lexicographic distance vectors and truncation as relations; C81_raw, C81_fitness, C81_neighbour, C81_selection, C81_closest, C81_boundary, C81_boundary_refuted and C81_survival prove the statement by induction over the truncation and the properties of the domination matrix.",
 "C82": "M_RVEA models the survival object in exact reals with NaN as None; C82_survivors (with Cauchy-Schwarz and the monotonicity of acos), C82_gamma, C82_ideal, C82_nadir, C82_adapt, C82_init, C82_collapse, C82_constant_objective, C82_population, C82_budget and the refutations C82_extreme_refuted, C82_dominated_refuted, C82_feasible_first_refuted.",
 "C83": "M_CTAEA models both archive updates position-wise with sorters, niche, fitness and distance as parameters; invariants over the removals and over the rounds of the diversity update; refutations on concrete individuals",
 "C84": "M_Mixed models the grouping of the variables, the loop over the groups with its dictionary updates, the default operators up to their arithmetic (arbitrary value set back to the bounds, rounding), sampling and the duplicate test; Thm_Mixed proves the loop by induction over the groups for all contract-abiding operators, Thm_Mixed2 discharges the contracts for the default operators, Thm_Mixed3 traces every value to its parent.",
 "C85": "M_Bench: the functions over the reals, any dimension; S_Bench: unique_minimum. Proofs: sums of squares, cos <= 1, Taylor bounds of cos and Machin's formula for Schwefel.",
 "C86": "M_ZDT: objective functions and fronts over the reals; S_Bench: attained, unbeaten, weakly_dom. Proofs: the curve is decreasing and lies below all objective vectors; intermediate value theorem, Taylor bounds of exp/cos and bounds of pi for ZDT6; interval bounds for the refutation of ZDT3.",
 "C87": "M_DTLZ: objective functions, fronts, wrappers over the reals; recursion of the product formula over the directions, induction for sums (simplex), sums of squares (sphere) and for reaching every point.",
 "C90": "M_MCDM over exact reals with NaN and infinity; the argmin with NaN, Chebyshev's inequality for the outliers, positivity of sacrifice and gain from mutual non-domination.",
 "C91": "M_GDE3: the duels as positions in parents ++ offspring, then Survival.do of M_Survival; a pool that beats whatever it leaves out keeps the unbeaten solutions; induction over the generations with transitivity of constrained domination.",
 "C92": "M_BRKGA: elite survival, selection and the generations; G3PCX's family replacement and swaps. Invariant: the elites are the best of the multiset of everything seen (a four-way split of permutations); for G3PCX the first member is unbeaten by everything seen.",
 "C93": "Archive updates as functions on lists with the random draws and truncations as arbitrary (contract-satisfying) functions per iteration; invariants by induction over the generations; refutations by concrete runs.",
 "C94": "M_EPPSO models ranks, messages, personal and local bests generically over a view of individuals (reusing M_Swarm), movement in exact arithmetic; Thm_EPPSO proves the claims by induction over the generations.",
 "C95": "M_AGE models ranks, crowding and the cut over positions with abstract sorter and scores, the corner search and the greedy scores over Q; Thm_AGE proves the survival claims from the sorter contract, Thm_AGE2 the greedy loop by induction.",
 "C96": "Model of _set_optimum on top of Survival.do for any inner survival with ranks; contract ranks_ok; generation and run theorems by the run invariants of C11.",
 "C97": "Model of the ranking, the clearing loop and the front loop; distances as arguments; the distance function and the normalisation points over the reals.",
 "C98": "Directions over the reals; survival as a copy of M_NSGA3's with the missing fallback, related to it by a lemma; nadir via M_Norm.get_nadir_point with the swapped arguments.",
 "C99": "M_DNSGA: one generation over an arbitrary variable type with the objective function in force as an argument, binary64 differences with any summation order, NSGA-II survival of M_Survival. Proved: no false alarm and masking on binary64 by cases over the float operations; exact detection over Q; the generation by the survival theorems C11/C96; static equivalence by induction over generations; reproducibility in the language of M_Repro.",
 "C100": "model the loop with NaN explicit (M_Pruning); prove the metrics monotone under removal, then the loop invariant by induction on the rounds; constant objective by a separate invariant",
 "C101": "M_Default (observations, data and delta functions, DefaultTermination as a criterion of M_Termination); generic characterisation of a delta criterion wrapped by RobustTermination, then each criterion in terms of S-level notions (stalled, best_feasible, least_cv, col_least).",
 "C102": "M_RMetric over exact rationals (IGD and hypervolume as arguments), M_Spacing over reals; sets characterised by membership through independent definitions (pareto_better, nearest, asf, represents, moved, nearest_other).",
 "C103": "M_Entropy with reals extended by infinities and NaN (the arithmetic the code relies on); each entry characterised by ce_entry (position-free), sums by total_of.",
 "C104": "M_Omni.v: exact rationals, mergesort and the randomised descending sort as contracts; fast_nds_matrix of M_NDS reused. Thm_Omni: relation and fronts; Thm_Omni2/3: crowding; Thm_Omni4: loop invariant over the fronts; Thm_Omni5: counting argument on the marked solutions; Thm_Omni6: induction over passes.",
 "C105": "Heap of objects with attributes; deepcopy as the memoised depth-first copy; arbitrary code as a small-step relation that reads, writes, deletes attributes and allocates. Proof: post-condition of the depth-first copy by induction on fuel, termination by the number of unvisited objects, and frame invariants for sets of objects closed under the attributes the code may follow.",
 "C106": "Callbacks as trees producing event traces, recorder as a threshold automaton, initialisation over a store of individual objects; induction on calls, on the sequence and on the population.",
 "C107": "M_PINSGA.vf_calc on binary64 with an arbitrary value function, M_NDS.fast_nds_matrix; acyclicity gives layering (P_FastNDS generalised from strict orders to relations with minimal elements)",
 "C108": "M_PINSGA: place/pairwise_ranks over an arbitrary time-dependent decision maker, refit over an arbitrary fit function, pin_advance as a state transition; induction over the groups and over the number of rows",
 "C109": "M_VF in exact rational arithmetic; the optimiser is replaced by 'any x, epsilon that passes the acceptance test'; telescoping over the sorted points",
 "C110": "S_HV defines the hypervolume by slicing; grids can be refined without changing the integral, so two sets are compared on a common grid; monotonicity, strictness, inclusion-exclusion and affine scaling by induction on the objectives. M_HV models the constructors and do; moocore is represented by its mathematical definition.",
 "C111": "M_CDTLZ.v models the constraints and fronts over the reals on top of M_DTLZ.v. The unconstrained optimality is inherited from C87; feasibility of the attaining point is computed where the distance variables are 1/2; C2DTLZ2's completeness uses that radial projection moves a point closer to any unit vector; C3DTLZ4 uses the strictly monotone form R - 3/4 f_j^2 at the largest coordinate.",
 "C112": "M_KGB models the archive as an ordered dict, the greedy merging, the labelling, the filling of the population and a generation up to the mating; the classifier, the draws, the ranking and the objectives are arguments; a small heap models the mutable default argument. Invariants over generations and over histories of objects.",
 "C113": "M_DF.v transcribes the fourteen problems over the reals, M_Dyn.v the clock and the front cache; fronts by monotone-parametrisation lemmas (front_family, front_part), history statements by induction on the operations",
 "C114": "M_Running.v: exact rationals with infinities and NaN from divisions by zero, the rounding of +1e-16 an arbitrary non-decreasing-value function; window by C36_window, igd by C65_zero, hv by C110_hv_monotone",
 "C115": "M_Display.v: texts as lists of characters, CPython's % formatting of exact rationals; S_Display.v: a reader of printed numbers; outputs as objects on a heap with set-up (deep copy) and display; C115_table, C115_int, C115_float(_cut), C115_output(_again/_given/_quiet), C115_progress",
 "C116": "M_WFG.v: every transformation, reduction and shape over the reals, with the floors and the correction to [0, 1]; the position/optimal-solution functions. All transformations keep [0, 1] (the non-separable reduction by a bound on sums of pairwise distances); the reported distance values become 0 (recursions of WFG8 and WFG9 by induction); positions reach every vector (intermediate values, patterns, backward recursion); shape vectors are rigid (no two comparable), so weak domination forces equality and distance 0.",
 "C117": "M_Niche.v: the stable sort of FitnessSurvival, the loop of EpsilonClearingSurvival step by step (clearing state of M_Roulette.v, attributes updated in place, iter_one computed at the first reset), the run of NicheGA. One invariant with a ghost list of labels (selection, flags, coverage of finished rounds, separation within rounds, niches), preserved by reset and by selection; distances are any function. The wrong niche is a computed run of two generations.",
 "C118": "M_Energy.v: points, moments and mask kept as rows of cells over the reals; Adam, the projections, the step and the loop with restarts. Invariant: coordinates on the simplex and m^2 <= 64 v, so no coordinate moves by more than 8 alpha <= 0.04 < 1 / 24 <= its largest coordinate; hence the recursive projection ends. Gradient by Coquelicot's is_derive. The points returned by an invariant over the history of visited configurations; the refutation is a triangle with one free point that overshoots the middle.",
 "C119": "M_Control.v on top of the mixed-variable mating (M_Mixed) and the tournament selection (M_Selection): arrays of parameter values by name, np.repeat, the order of the children of Crossover.do, advance. Position arithmetic for the record; domains by C84's mating theorem with an inductive definition of the populations a run can reach.",
 "C120": "M_Complex.v: expressions evaluated on reals and on pairs of reals as numpy does; the dictionary loop of do. Convergence by induction on expressions: the real part has derivative 0 and the imaginary part the partial derivative at step 0 (Coquelicot's is_derive); polynomials by coefficient lists; the dictionary by an invariant over points and names.",
 "C121": "M_KKTPM.v: arrays as functions of indices over the reals, the solver a parameter (exact; shown to exist by Gaussian elimination). Invariant of the loop: a growing set of multipliers is fixed to zero, the others satisfy the normal equations; the matrix as a positive semidefinite bilinear form gives range, zero set and uniqueness; inequality of Cauchy for the bound.",
 "C122": "M_GProb.v: the problems over the reals, solutions as functions of the index. Linear certificate for G1, inequality of the means for G3, monotonicity for G6, G11, G24, an exact rational Lagrange dual certificate for G7, direct computation for the refuted claims.",
 "C123": "M_Random.v on top of M_Optimum.v; invariant over the iterations: reported ones are best of the history, and everything beaten by the history is beaten by a reported one (C40 for one step, transitivity of better)."
}