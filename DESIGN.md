# Formal model of pymoo in Rocq (Coq 8.16.1)

## 1. Method

* `/verif/properties.jsonl` lists the properties (C01, C02, ...), `/verif/MANIFEST.json` maps them to theorems.
* `rocq/theories/` holds, for every area `X`
  * `M_X.v`  - the model: small total Gallina functions mirroring the Python functions, every definition
    citing file and lines in `/repo`; no proofs about properties;
  * `S_X.v`  - the specification (independent of the model's helpers); small specifications stand at the head of `Thm_X.v`;
  * `P_X.v`  - lemmas and proofs;
  * `Thm_X.v` - the property theorems, followed by `Print Assumptions`, and the examples (`..._case`, `..._example`) showing that
    the hypotheses are met by concrete non-trivial inputs.
* Claims that are false of the code are recorded as theorems `..._refuted` with a concrete witness, and the property is then
  `partial` unless its statement in properties.jsonl excludes that case.
* Partially proved claims carry the suffix `_partial`.
* `seeded/LOG.jsonl` records the wrong programs the theorems were tested against.

## 2. Modelling decisions

* **Numbers.** A numpy float is modelled by `flt := SpecFloat.spec_float` (Coq standard library: signed zeros,
  infinities, NaN, binary64 finite numbers) with the IEEE comparisons `SFltb`, `SFleb`, `SFeqb`. Everything that
  only *compares* floats (dominance, sorting, survival, clamping, tournaments, archives, ...) is therefore modelled
  without any idealisation, NaN included. Code that does *arithmetic* is modelled (a) with the arithmetic as
  an arbitrary function (oracle), when the property does not depend on it (e.g. clamping after SBX), or (b) over exact
  rationals `Q` / integers (rounding error is then not modelled; said in the comment), or (c) with an arbitrary monotone rounding after
  every operation (decompositions), or (d) with binary64 operations of `SpecFloat` / Flocq where rounding is the point.
* **Arrays** are lists; a matrix is a list of rows, its rectangularity is a hypothesis of the theorem.
* **numpy.argsort / lexsort / argmin** - unstable sorting is modelled by *any* function returning a permutation of the
  indices that sorts the keys (a section variable that becomes an explicit premise of the theorem, and is shown
  to be satisfiable by an insertion-sort instance). `argmin` is the first minimum.
* **Randomness** - a random generator is an oracle: the random values are explicit universally quantified arguments
  (arbitrary lists/functions/permutations in the documented range). Where the source of randomness is the point (C51), an operator is a
  program in a state monad over named generators.
* **External code** (moocore `pareto_rank`, `is_nondominated`, scipy `cdist`) - premises stating their documented contract.
* **Objects** - an `Individual` is a record; object identity, where it matters, is an explicit reference into a heap. In-place mutation
  is a function returning the new value / store.
* **Loops** - `for` loops are folds, `while` loops are fuelled recursion with an explicit out-of-fuel result that theorems
  exclude (fuel adequacy is proved, i.e. termination).
* **Exceptions/assertions** are explicit error results (`option`/`result`).

## 3. Per property: what is modelled, how it is proved

| id | property | modelled and proved how | theorems in | status |
|----|----|----|----|----|
| C01 | Dominance relation of two solutions | `get_relation` loop over binary64 objective vectors; case analysis on the running flag, order lemmas for SFcompare | Thm_Dominator | proved |
| C02 | Domination matrix | vectorised matrix against the loop; entrywise equality | Thm_Dominator | proved |
| C03 | Fast non-dominated sort is the Pareto peeling | counting algorithm (dominated lists, counters, fronts) as fuelled loop; invariant on counters, peeling specification, minimal elements of finite transitive irreflexive relations | Thm_NDS | proved |
| C04 | Efficient non-dominated sort agrees with the Pareto peeling | lexsort oracle, sequential/binary search with fuel; invariant: prefix correctly layered, domination downward closed in the front index | Thm_NDS | proved |
| C05 | Dominance-degree sorts agree with the Pareto peeling | comparison matrices and both sorts; counting lemma, peeling | Thm_NDS | proved |
| C06 | Tree-based sort agrees with the Pareto peeling | n-ary tree, check_tree; structural invariant of the tree; refutation by duplicates | Thm_NDS | proved |
| C07 | Specialised bi-objective sort agrees with the Pareto peeling | bi-objective sweep; sweep invariant for distinct first objectives; refutation by ties | Thm_NDS | proved |
| C08 | Finding the non-dominated points | direct model; order lemmas | Thm_NDS | proved |
| C09 | Early stopping and ranks of the non-dominated sorting object | stopping loop over fronts; induction over fronts | Thm_NDS | proved |
| C10 | Feasible-first survival | feasibility split, fronts loop, merge; permutation/NoDup reasoning | Thm_Survival | proved |
| C11 | Rank-and-crowding survival is elitist | fronts loop with crowding as oracle; sortedness of argsort, prefix-of-fronts invariant | Thm_GDE3b, Thm_Survival | proved |
| C12 | Constrained rank-and-crowding survival | constrained ranks from two sorts; same technique | Thm_Survival | proved |
| C13 | Replacement survival adaptor | rank := index array; slot-wise characterisation and refutation witness | Thm_Survival | partial |
| C14 | One-to-one improvement replacement never worsens | slot-wise comparison; induction over generations | Thm_Survival | proved |
| C15 | Parameter-less constraint handling | rationals and binary64; order reasoning; absorption refutation | Thm_Survival | partial |
| C16 | Constraint violation is a violation measure | rationals; induction on the constraint list | Thm_CV | proved |
| C17 | Constraint violation reflects the current constraint values | record with cache; induction over operation lists; refutation | Thm_CV | partial |
| C18 | Evaluation bookkeeping | heap of individuals, problem as oracle; induction over call histories | Thm_Eval | proved |
| C19 | Infill produces new, distinct candidates within budget | retry loop with mating oracle; induction on the loop | Thm_Duplicate | proved |
| C20 | Duplicate elimination | duplicate filter with an arbitrary distance predicate; induction | Thm_Duplicate | proved |
| C21 | Order crossover yields permutations | list functions, arbitrary segment; Permutation proofs | Thm_Perm | proved |
| C22 | Edge recombination crossover yields permutations | adjacency sets; invariant of the ERX loop | Thm_Perm | proved |
| C23 | Inversion mutation yields permutations | list reversal of a segment; Permutation | Thm_Perm | proved |
| C24 | Mask based crossovers conserve genes | masks; positionwise exchange, counting | Thm_Cross | proved |
| C25 | Crossover operator contract | shape and parent bookkeeping; direct | Thm_Cross | proved |
| C26 | Variation operators stay inside the box | clamping over binary64 with oracle arithmetic, rationals for computing repairs, reals for SBX/PM; order reasoning | Thm_Bounds, Thm_RealOps | proved |
| C27 | Sampling stays inside the domain | rationals, Flocq rounding for random sampling; monotonicity of rounding; refutations in SpecFloat | Thm_RoundOps, Thm_Sampling | partial |
| C28 | Rounding keeps integers in bounds | integer rounding; order reasoning | Thm_Bounds | proved |
| C29 | Tournament selection is fair and never prefers an infeasible solution | index matrices, comparison chains; counting in concatenated permutations | Thm_Selection | proved |
| C30 | Differential evolution parents are distinct | loop invariants for DE selection | Thm_Selection | proved |
| C31 | Duplicate-free random filling | fill loop; refutation and partial result | Thm_Selection | partial |
| C32 | Randomised sorting is sorting | quicksort partition invariant; Permutation and sortedness | Thm_RandSort | proved |
| C33 | Stochastic ranking | bubble sort with random decisions; Permutation, sortedness when decisions are deterministic | Thm_RandSort | proved |
| C34 | Generation and evaluation budgets | termination criteria and run loop, algorithm hooks as oracle; induction on steps; Flocq for the ratio | Thm_Algorithm, Thm_Budget64 | proved |
| C35 | Termination combinators | termination trees; induction | Thm_Termination | proved |
| C36 | Robust and sliding-window termination | sliding window as list; induction over histories | Thm_Termination | proved |
| C37 | Target value termination | rationals; case analysis; refutation | Thm_Fmin, Thm_Termination | partial |
| C38 | Ask-tell equals the closed loop | algorithm record with arbitrary hooks; equality of state transformers, run invariant | Thm_Algorithm | proved |
| C39 | Result reporting | Result assembly; case analysis | Thm_Optimum | proved |
| C40 | Optimum filter | optimum filter; argmin and non-domination lemmas | Thm_Optimum | proved |
| C41 | Archive invariant | archive fold; invariant over all histories, truncation oracle | Thm_Archive | proved |
| C42 | Elitism of the genetic algorithm | survival plus merge fold; invariant over generations | Thm_GA | proved |
| C43 | Population container laws | heap and arrays of references; list induction | Thm_Eval | proved |
| C44 | Parameter flattening round trip | association lists and strings; induction on trees | Thm_Params | proved |
| C45 | Setting nested parameters | dictionary update on object trees; induction on paths | Thm_Params2 | partial |
| C46 | Das-Dennis reference directions | recursion; combinatorics of compositions | Thm_RefDirs | proved |
| C47 | Decompositions respect dominance | rationals with monotone rounding; order reasoning; refutations | Thm_Decomp | proved |
| C48 | Cache returns the first result | memo table; induction over call sequences | Thm_Cache | proved |
| C49 | Roulette and clearing selections return valid indices | cumulative sums, clearing loop; order reasoning, termination measure | Thm_Roulette | proved |
| C50 | Crowding distance | sort, gaps, scatter; order-independence through sorted permutations | Thm_Crowding | proved |
| C51 | Reproducibility under a seed | free programs over named generators; closure lemmas for reproducibility; refutations | Thm_Repro | partial |
| C52 | Elementwise equals vectorised evaluation | row-wise evaluation and stacking; list lemmas | Thm_Evaluate | proved |
| C53 | Tolerance based termination | delta/tolerance criteria; induction over histories | Thm_Termination | proved |
| C54 | Parameter discovery | object graph walk; induction | Thm_Params2 | proved |
| C55 | Mapping onto the unit simplex | rationals; order reasoning | Thm_RefDirs | proved |
| C56 | Farthest-first selection of points | greedy selection loop; argmax/argmin lemmas; refutation | Thm_RefDirs2 | partial |
| C57 | Incremental reference directions | layers; induction | Thm_RefDirs2 | proved |
| C58 | Projection onto the unit simplex | sort-based projection; variational characterisation | Thm_RefDirs2 | proved |
| C59 | NSGA-III niching and survival | niching loop with permutations/shuffles as oracles; loop invariant giving a sequential greedy specification; fronts through the sorter contract of C09; association in exact reals (projection onto a line) | Thm_NSGA3, Thm_NSGA3R | proved |
| C60 | NSGA-III's optimum is part of the population | same model; refutation by a five point population | Thm_NSGA3 | partial |
| C61 | Ideal, worst, extreme and nadir points of NSGA-III's normalisation | M_Norm.v models the update with an arbitrary linear solver; induction over the history; Thm_Norm.v. | Thm_Norm | proved |
| C62 | Normalisation to [0, 1] | M_Norm.v in exact arithmetic with the array type (integer arrays truncate); Thm_Norm2.v; equal bounds and integer arrays are refuted. | Thm_Norm2 | proved |
| C63 | The normalised problem evaluates the original one at the denormalised point | M_Norm.v zero_to_one_eval; refuted in Thm_Norm2.v (do calls normalize), with a proof of what it evaluates instead. | Thm_Norm2 | partial |
| C64 | DIRECT partitions the search space | M_Direct.v models set-up, selection (with truncation) and division; invariant over reachable archives in Thm_Direct.v. Refuted: after truncation the boxes no longer cover; more than n_max_candidates candidates starve the largest box; fixed variables start out of bounds. | Thm_Direct | proved |
| C65 | Distance indicators GD, GD+, IGD, IGD+ | M_Indicator.v in exact reals (moocore's igd functions under a contract); Thm_Indicator.v. Plain IGD contradicting dominance and the value 0 of an empty set are recorded as refutations. | Thm_Indicator | proved |
| C66 | MOEA/D replaces only neighbours and never worsens a subproblem | M_MOEAD models the neighbourhoods, the parent selection, the replacement on top of the decomposition model of C47, the generator protocol of LoopwiseAlgorithm as a state machine, and the parallel variant; invariants by induction over the sequence of offspring. | Thm_MOEAD, Thm_MOEAD2 | proved |
| C67 | Bracketing searches keep the minimum | M_Bracket in the reals; induction over the iterations with the golden ratio equation r*r = 1 - r; counterexamples for the quadratic interpolation. | Thm_Bracket | partial |
| C68 | Wolfe line search | M_Wolfe in the reals with fuel for the unbounded zoom; induction on the fuel; a polynomial counterexample with its derivative. | Thm_Wolfe | partial |
| C69 | Nelder-Mead keeps a valid simplex and, from the second step on, its best point | M_Nelder: generators as a free monad whose evaluations are arbitrary; invariant of a step by case analysis of its branches, induction over the steps; counterexamples by running the model. | Thm_Nelder, Thm_Nelder2 | proved |
| C70 | Pattern search reports the best point evaluated | M_Pattern on the generators of M_Nelder; induction over the variables of an exploration and over the iterations. | Thm_Pattern | proved |
| C71 | Constraints as an objective | M_Wrappers models do() of the wrapper over dictionaries whose arrays carry their dimension; values and keys proved for all problems, non-dominance correspondence from the violation theorems, exceptions by computation. | Thm_Wrappers | proved |
| C72 | Constraints as a penalty | M_Wrappers; reshape to F.shape modelled so that the failure with several objectives is visible. | Thm_Wrappers | proved |
| C73 | Constraints from bounds | M_Wrappers; equivalence of the constraint rows with box membership, additivity of the violation. | Thm_Wrappers | proved |
| C74 | Adaptive epsilon constraint handling | M_Wrappers: state machine of the shared and the adapted configuration and the two evaluation counters; induction over the iterations. | Thm_Adaptive | proved |
| C75 | Converting to a single objective by decomposition | M_Static on top of M_Decomp. | Thm_Static | proved |
| C76 | Problems given by functions or by values | M_Static on top of M_Evaluate. | Thm_Static | proved |
| C77 | Differential evolution never loses the best solution | M_Swarm: generic individuals with a view; induction over generations using that strictly-better is a weak order. | Thm_DE | proved |
| C78 | Particle swarm: records, movement, adaptation | M_Swarm (exact rational arithmetic), M_SwarmR (inertia over the reals); replacement via C77, optimum via C40, case analysis for the adaptation. | Thm_PSO, Thm_PSOR | proved |
| C79 | Evolution strategies keep step sizes and offspring in bounds, and ES reports the best solution ever evaluated | M_ES: constructor sizes, _advance, _set_optimum, offspring coordinate by coordinate; induction over generations with the survival contract of C42 and the filter contract of C40; concrete counterexamples for the exceptions. | Thm_ES | proved |
| C80 | SMS-EMOA survival keeps the hypervolume, one offspring at a time | M_SMS over the sorter contract of C09; hypervolume specified (S_SMS) as the number of covered unit cells of a lattice; moocore.hv_contributions enters as a contract; optimality by case split on the cut front (first front: exchange argument; later front: dominated points cover nothing new); counterexample computed. | Thm_SMS | proved |
| C81 | SPEA2's survival: strength fitness, environmental selection and truncation | M_SPEA2 models _do and the truncation on positions with distances in Q plus infinity; S_SPEA2 defines strengths, lexicographic distance vectors and truncation as relations; C81_raw, C81_fitness, C81_neighbour, C81_selection, C81_closest, C81_boundary, C81_boundary_refuted and C81_survival prove the statement by induction over the truncation and the properties of the domination matrix. | Thm_SPEA2, Thm_SPEA2b | proved |
| C82 | RVEA: one survivor per reference direction, and what that does not guarantee | M_RVEA models the survival object in exact reals with NaN as None; C82_survivors (with Cauchy-Schwarz and the monotonicity of acos), C82_gamma, C82_ideal, C82_nadir, C82_adapt, C82_init, C82_collapse, C82_constant_objective, C82_population, C82_budget and the refutations C82_extreme_refuted, C82_dominated_refuted, C82_feasible_first_refuted. | Thm_RVEA, Thm_RVEA2, Thm_RVEA3 | proved |
| C83 | C-TAEA's two archives: exact size, feasibility first, balanced niches, termination, and what is reported | M_CTAEA models both archive updates position-wise with sorters, niche, fitness and distance as parameters; invariants over the removals and over the rounds of the diversity update; refutations on concrete individuals | Thm_CTAEA, Thm_CTAEA2, Thm_CTAEA3 | proved |
| C84 | Mixed-variable mating and sampling | M_Mixed models the grouping of the variables, the loop over the groups with its dictionary updates, the default operators up to their arithmetic (arbitrary value set back to the bounds, rounding), sampling and the duplicate test; Thm_Mixed proves the loop by induction over the groups for all contract-abiding operators, Thm_Mixed2 discharges the contracts for the default operators, Thm_Mixed3 traces every value to its parent. | Thm_Mixed, Thm_Mixed2, Thm_Mixed3 | proved |
| C85 | Reported optima of the single-objective benchmarks | M_Bench: the functions over the reals, any dimension; S_Bench: unique_minimum. Proofs: sums of squares, cos <= 1, Taylor bounds of cos and Machin's formula for Schwefel. | Thm_Bench, Thm_Bench2 | proved |
| C86 | Reported Pareto fronts of the ZDT problems | M_ZDT: objective functions and fronts over the reals; S_Bench: attained, unbeaten, weakly_dom. Proofs: the curve is decreasing and lies below all objective vectors; intermediate value theorem, Taylor bounds of exp/cos and bounds of pi for ZDT6; interval bounds for the refutation of ZDT3. | Thm_ZDT, Thm_ZDT2, Thm_ZDT3 | proved |
| C87 | Reported Pareto fronts of the DTLZ problems | M_DTLZ: objective functions, fronts, wrappers over the reals; recursion of the product formula over the directions, induction for sums (simplex), sums of squares (sphere) and for reaching every point. | Thm_DTLZ, Thm_DTLZ2 | proved |
| C88 | Reported optima of constrained and multimodal benchmarks |  | Thm_Bench3, Thm_Bench4 | proved |
| C89 | Combinatorial problems |  | Thm_Comb, Thm_Comb2 | proved |
| C90 | Decision making picks the solution its method describes | M_MCDM over exact reals with NaN and infinity; the argmin with NaN, Chebyshev's inequality for the outliers, positivity of sacrifice and gain from mutual non-domination. | Thm_MCDM, Thm_MCDM2 | proved |
| C91 | GDE3 keeps what nobody beats | M_GDE3: the duels as positions in parents ++ offspring, then Survival.do of M_Survival; a pool that beats whatever it leaves out keeps the unbeaten solutions; induction over the generations with transitivity of constrained domination. | Thm_GDE3, Thm_GDE3b | proved |
| C92 | BRKGA and G3PCX never lose their best | M_BRKGA: elite survival, selection and the generations; G3PCX's family replacement and swaps. Invariant: the elites are the best of the multiset of everything seen (a four-way split of permutations); for G3PCX the first member is unbeaten by everything seen. | Thm_BRKGA, Thm_BRKGA2, Thm_G3PCX | proved |
| C93 | Multi-objective particle swarms (MOPSO-CD, CMOPSO) | Archive updates as functions on lists with the random draws and truncations as arbitrary (contract-satisfying) functions per iteration; invariants by induction over the generations; refutations by concrete runs. | Thm_MOPSO, Thm_MOPSO2 | proved |
| C94 | EPPSO and NRBO never lose the best solution; local bests follow the topology | M_EPPSO models ranks, messages, personal and local bests generically over a view of individuals (reusing M_Swarm), movement in exact arithmetic; Thm_EPPSO proves the claims by induction over the generations. | Thm_EPPSO | proved |
| C95 | AGE-MOEA: survivors, corner solutions and optimum | M_AGE models ranks, crowding and the cut over positions with abstract sorter and scores, the corner search and the greedy scores over Q; Thm_AGE proves the survival claims from the sorter contract, Thm_AGE2 the greedy loop by induction. | Thm_AGE, Thm_AGE2, Thm_AGE3 | proved |
| C96 | What NSGA-II reports as optimum | Model of _set_optimum on top of Survival.do for any inner survival with ranks; contract ranks_ok; generation and run theorems by the run invariants of C11. | Thm_RankOpt | proved |
| C97 | R-NSGA-II: preference ranking, epsilon clearing, survivors and optimum | Model of the ranking, the clearing loop and the front loop; distances as arguments; the distance function and the normalisation points over the reals. | Thm_RNSGA, Thm_RNSGA2, Thm_RNSGA3 | proved |
| C98 | R-NSGA-III: directions around the reference points, survivors, reported optimum | Directions over the reals; survival as a copy of M_NSGA3's with the missing fallback, related to it by a lemma; nadir via M_Norm.get_nadir_point with the swapped arguments. | Thm_RN3, Thm_RN3b | proved |
| C99 | Dynamic NSGA-II reacts to changes it samples, and only to those | M_DNSGA: one generation over an arbitrary variable type with the objective function in force as an argument, binary64 differences with any summation order, NSGA-II survival of M_Survival. Proved: no false alarm and masking on binary64 by cases over the float operations; exact detection over Q; the generation by the survival theorems C11/C96; static equivalence by induction over generations; reproducibility in the language of M_Repro. | Thm_DNSGA, Thm_DNSGA2, Thm_DNSGA3 | proved |
| C100 | Pruning crowding metrics: mnn, 2nn and pcd | model the loop with NaN explicit (M_Pruning); prove the metrics monotone under removal, then the loop invariant by induction on the rounds; constant objective by a separate invariant | Thm_Pruning, Thm_Pruning3, Thm_Pruning4, Thm_Pruning5, Thm_Pruning6 | proved |
| C101 | The default terminations stop only for stagnation or an exhausted budget | M_Default (observations, data and delta functions, DefaultTermination as a criterion of M_Termination); generic characterisation of a delta criterion wrapped by RobustTermination, then each criterion in terms of S-level notions (stalled, best_feasible, least_cv, col_least). | Thm_Default3, Thm_Default4 | proved |
| C102 | R-metric and spacing indicators | M_RMetric over exact rationals (IGD and hypervolume as arguments), M_Spacing over reals; sets characterised by membership through independent definitions (pareto_better, nearest, asf, represents, moved, nearest_other). | Thm_RMetric2, Thm_Spacing | proved |
| C103 | Crowding entropy | M_Entropy with reals extended by infinities and NaN (the arithmetic the code relies on); each entry characterised by ce_entry (position-free), sums by total_of. | Thm_Entropy2 | proved |
| C104 | Omni-Optimizer: loose dominance, two-space crowding, survival, neighbour mating | M_Omni.v: exact rationals, mergesort and the randomised descending sort as contracts; fast_nds_matrix of M_NDS reused. Thm_Omni: relation and fronts; Thm_Omni2/3: crowding; Thm_Omni4: loop invariant over the fronts; Thm_Omni5: counting argument on the marked solutions; Thm_Omni6: induction over passes. | Thm_Omni, Thm_Omni2, Thm_Omni3, Thm_Omni4, Thm_Omni5, Thm_Omni6 | proved |
| C105 | minimize works on copies; options, set-up algorithms and history entries | Heap of objects with attributes; deepcopy as the memoised depth-first copy; arbitrary code as a small-step relation that reads, writes, deletes attributes and allocates. Proof: post-condition of the depth-first copy by induction on fuel, termination by the number of unvisited objects, and frame invariants for sets of objects closed under the attributes the code may follow. | Thm_Heap2, Thm_Minimize, Thm_Minimize2, Thm_Minimize3, Thm_Minimize4 | proved |
| C106 | Callback protocol, recorders and initialisation from given individuals | Callbacks as trees producing event traces, recorder as a threshold automaton, initialisation over a store of individual objects; induction on calls, on the sequence and on the population. | Thm_Callback | proved |
| C107 | PINSGA2: preference-based dominance | M_PINSGA.vf_calc on binary64 with an arbitrary value function, M_NDS.fast_nds_matrix; acyclicity gives layering (P_FastNDS generalised from strict orders to relations with minimal elements) | Thm_PINSGA | proved |
| C108 | PINSGA2: ranking by the decision maker and the interaction step | M_PINSGA: place/pairwise_ranks over an arbitrary time-dependent decision maker, refit over an arbitrary fit function, pin_advance as a state transition; induction over the groups and over the number of rows | Thm_PINSGA2, Thm_PINSGA3 | proved |
| C109 | PINSGA2: what an accepted value function guarantees | M_VF in exact rational arithmetic; the optimiser is replaced by 'any x, epsilon that passes the acceptance test'; telescoping over the sorted points | Thm_VF2 | proved |
| C110 | Hypervolume and epsilon indicators | S_HV defines the hypervolume by slicing; grids can be refined without changing the integral, so two sets are compared on a common grid; monotonicity, strictness, inclusion-exclusion and affine scaling by induction on the objectives. M_HV models the constructors and do; moocore is represented by its mathematical definition. | Thm_HV, Thm_HV2, Thm_HV3, Thm_HV4 | proved |
| C111 | The reported Pareto fronts of the constrained DTLZ problems | M_CDTLZ.v models the constraints and fronts over the reals on top of M_DTLZ.v. The unconstrained optimality is inherited from C87; feasibility of the attaining point is computed where the distance variables are 1/2; C2DTLZ2's completeness uses that radial projection moves a point closer to any unit vector; C3DTLZ4 uses the strictly monotone form R - 3/4 f_j^2 at the largest coordinate. | Thm_CDTLZ, Thm_CDTLZ2 | proved |
| C112 | KGB-DMOEA: archive, knowledge reconstruction and the population after a change | M_KGB models the archive as an ordered dict, the greedy merging, the labelling, the filling of the population and a generation up to the mating; the classifier, the draws, the ranking and the objectives are arguments; a small heap models the mutable default argument. Invariants over generations and over histories of objects. | Thm_KGB, Thm_KGB2 | proved |
| C113 | Dynamic test problems: clock, freshness of the reported front, and the DF fronts at every time | M_DF.v transcribes the fourteen problems over the reals, M_Dyn.v the clock and the front cache; fronts by monotone-parametrisation lemmas (front_family, front_part), history statements by induction on the operations | Thm_DF, Thm_DF2, Thm_DF3, Thm_Dyn | proved |
| C114 | Running metric and MIGD: what the recorded convergence values mean | M_Running.v: exact rationals with infinities and NaN from divisions by zero, the rounding of +1e-16 an arbitrary non-decreasing-value function; window by C36_window, igd by C65_zero, hv by C110_hv_monotone | Thm_Running, Thm_Running2, Thm_Running3 | proved |
| C115 | Verbose output: what the printed table says | M_Display.v: texts as lists of characters, CPython's % formatting of exact rationals; S_Display.v: a reader of printed numbers; outputs as objects on a heap with set-up (deep copy) and display; C115_table, C115_int, C115_float(_cut), C115_output(_again/_given/_quiet), C115_progress | Thm_Display2, Thm_Display3, Thm_Display4, Thm_Display5, Thm_Display6, Thm_Display7 | proved |
| C116 | WFG1-WFG9: values, fronts and the sets and fronts the code reports | M_WFG.v: every transformation, reduction and shape over the reals, with the floors and the correction to [0, 1]; the position/optimal-solution functions. All transformations keep [0, 1] (the non-separable reduction by a bound on sums of pairwise distances); the reported distance values become 0 (recursions of WFG8 and WFG9 by induction); positions reach every vector (intermediate values, patterns, backward recursion); shape vectors are rigid (no two comparable), so weak domination forces equality and distance 0. | Thm_WFG10, Thm_WFG8, Thm_WFG9 | proved |
| C117 | NicheGA: survivors, rounds, leaders and niches of the epsilon clearing | M_Niche.v: the stable sort of FitnessSurvival, the loop of EpsilonClearingSurvival step by step (clearing state of M_Roulette.v, attributes updated in place, iter_one computed at the first reset), the run of NicheGA. One invariant with a ghost list of labels (selection, flags, coverage of finished rounds, separation within rounds, niches), preserved by reset and by selection; distances are any function. The wrong niche is a computed run of two generations. | Thm_Niche3, Thm_Niche4 | proved |
| C118 | Riesz energy reference directions: simplex, fixed edges, gradient and the points returned | M_Energy.v: points, moments and mask kept as rows of cells over the reals; Adam, the projections, the step and the loop with restarts. Invariant: coordinates on the simplex and m^2 <= 64 v, so no coordinate moves by more than 8 alpha <= 0.04 < 1 / 24 <= its largest coordinate; hence the recursive projection ends. Gradient by Coquelicot's is_derive. The points returned by an invariant over the history of visited configurations; the refutation is a triangle with one free point that overshoots the middle. | Thm_Energy2, Thm_Energy3, Thm_Energy4, Thm_Energy5, Thm_Energy6 | proved |
| C119 | Parameter control: what is recorded for an offspring, and domains of evolved parameters | M_Control.v on top of the mixed-variable mating (M_Mixed) and the tournament selection (M_Selection): arrays of parameter values by name, np.repeat, the order of the children of Crossover.do, advance. Position arithmetic for the record; domains by C84's mating theorem with an inductive definition of the populations a run can reach. | Thm_Control, Thm_Control2, Thm_Control3 | proved |
| C120 | Complex step gradients: what they approximate, when they are exact, and what a caller must ask for | M_Complex.v: expressions evaluated on reals and on pairs of reals as numpy does; the dictionary loop of do. Convergence by induction on expressions: the real part has derivative 0 and the imaginary part the partial derivative at step 0 (Coquelicot's is_derive); polynomials by coefficient lists; the dictionary by an invariant over points and names. | Thm_Complex, Thm_Complex2, Thm_Complex3 | proved |
| C121 | KKT proximity measure: termination, range, and what 0 means | M_KKTPM.v: arrays as functions of indices over the reals, the solver a parameter (exact; shown to exist by Gaussian elimination). Invariant of the loop: a growing set of multipliers is fixed to zero, the others satisfy the normal equations; the matrix as a positive semidefinite bilinear form gives range, zero set and uniqueness; inequality of Cauchy for the bound. | Thm_KKTPM2, Thm_KKTPM3 | proved |
| C122 | Reported optima of the CEC 2006 problems | M_GProb.v: the problems over the reals, solutions as functions of the index. Linear certificate for G1, inequality of the means for G3, monotonicity for G6, G11, G24, an exact rational Lagrange dual certificate for G7, direct computation for the refuted claims. | Thm_GProb | proved |
| C123 | Random search reports the best of everything it has evaluated | M_Random.v on top of M_Optimum.v; invariant over the iterations: reported ones are best of the history, and everything beaten by the history is beaten by a reported one (C40 for one step, transitivity of better). | Thm_Random | proved |

Nothing in the list is considered inexpressible. What the model does not exhibit: wall-clock time (time based termination is
modelled with the clock as an oracle), real parallel evaluation (a runner is an oracle that maps in order), the quality of random
numbers, and the compiled (Cython) variants of the functions.

## 4. Trusted base

* Coq's kernel (8.16.1) and, for the closed terms evaluated in examples, its reduction machines (`vm_compute` is part of the kernel).
* The reading of the Python source: that each model definition says what the cited lines do. numpy, scipy and moocore are not verified;
  what is assumed about them is said at the definition (`argsort`, `lexsort`, `cdist`, broadcasting, `np.unique`, ...).
* The assumptions of each theorem, section 6. No axiom is declared in this development; every section variable is generalised into a
  premise when its section closes.

Not modelled at all: visualisation, display output, callbacks changing the algorithm, problem definitions (test problems), the vendored
packages (`vendor/`), gradient toolboxes, CMA-ES, `experimental/`, the parallelisation back ends beyond their mapping contract,
pickling/checkpointing, and everything not named in section 5.

## 5. Modelled code

Header of every model file (each definition in it cites the lines it models):

* **M_AGE.v** - Model of /repo/pymoo/algorithms/moo/age.py ([AGEMOEASurvival], [find_corner_solutions], [AGEMOEA._set_optimum]) and of the parts of /repo/pymoo/algorithms/moo/age2.py that differ. Modelled: ranks, which crowding values are computed, the cut of the last front, the reported optimum (for sorters meeting their contract); the corner solutions and the greedy survival scores in exact arithmetic, for an arbitrary distance matrix; the clipping of p. Not modelled: the p-norms and geodesic distances themselves, the normalisation by the hyperplane, Newton's iteration of AGE-MOEA2.
* **M_Algorithm.v** - Model of /repo/pymoo/core/algorithm.py (class Algorithm): the loop, ask/tell, history, archive, callback. [I] is everything that belongs to the concrete algorithm (population, offspring, random state, the individual objects, the evaluator); [P] is a population as handed around; [Ar] the archive. The methods to be overwritten are arbitrary functions. A method may force the termination (GeneticAlgorithm does when no offspring could be generated): its last result is that flag. The callback sees the iteration number and the inner state and may force the termination too; that a callback or display changes the algorithm otherwise is not modelled. [None] as a result is an exception raised by the termination criterion.
* **M_BRKGA.v** - Model of BRKGA (/repo/pymoo/algorithms/soo/nonconvex/brkga.py: EliteSurvival, EliteBiasedSelection, BRKGA._advance) and of G3PCX (/repo/pymoo/algorithms/soo/nonconvex/g3pcx.py: G3PCX._next after the yield, _initialize_advance, _set_optimum). Individuals are of an arbitrary type. A population of BRKGA carries the attribute "type" (true: "elite", false: "non_elite"). Random indices are arguments; [None]: an exception. Not modelled: the branch of EliteSurvival for a custom DuplicateElimination object (brkga.py:37-48), the operators of the mating (see C21-C31).
* **M_Bench.v** - Model of the single-objective benchmark functions with a reported optimum: /repo/pymoo/problems/single/{sphere,ackley,griewank,rastrigin,rosenbrock,zakharov,himmelblau,schwefel}.py, one row of X at a time, in exact real arithmetic (the floating point evaluation is not modelled; decimal literals are the decimal numbers). None: an exception. Each problem: [_evaluate], the bounds, [_calc_pareto_front] (the optimal value) and [_calc_pareto_set].
* **M_Bench2.v** - Model of benchmark problems with analytically reported optima: /repo/pymoo/problems/multi/{bnh,srn,sympart,omnitest,mw}.py and /repo/pymoo/problems/single/{cantilevered_beam,pressure_vessel}.py, one row at a time, in exact real arithmetic.
* **M_Bounds.v** - Model of the bound handling of operators: /repo/pymoo/operators/repair/{bounds_repair,to_bound,bounce_back,inverse_penalty,rounding}.py, /repo/pymoo/operators/crossover/{sbx,dex}.py, /repo/pymoo/operators/mutation/{pm,gauss}.py. numpy applies every formula entry by entry; the model gives the entry function and lifts it over the vector ([lift]). Clamping operators are modelled in binary64 ([flt], NaN included); repairs that compute (scaling, modulo) in exact rationals, with [None] for NaN. Random numbers are parameters.
* **M_Bracket.v** - Model of the univariate searches: /repo/pymoo/algorithms/base/bracket.py, /repo/pymoo/algorithms/soo/univariate/golden.py and quadr_interp.py. Exact real arithmetic; the objective is a function on the reals; an evaluated individual is a pair of X[0] and F[0].
* **M_CDTLZ.v** - Model of the constrained DTLZ problems: /repo/pymoo/problems/many/cdtlz.py and dcdtlz.py, one row at a time, in exact real arithmetic. The reference directions are an argument (without them get_ref_dirs is asked, which raises for more than three objectives).
* **M_CTAEA.v** - Model of C-TAEA: /repo/pymoo/algorithms/moo/ctaea.py (CADASurvival, comp_by_cv_dom_then_random, RestrictedMating, _set_optimum). Individuals are of any type [A]; niche and decomposed fitness of an individual for the current ideal point (lines 108-121 [_associate]) and the distances in the objective space are parameters, as are the sorters. Simplifications: a difference of distances is negative (zero) exactly if they are ordered (equal); the counters of the niches are recomputed from the survivors (the code decrements them); picks made after the archive is full (never used) are not recorded.
* **M_Cache.v** - Model of /repo/pymoo/util/cache.py and its uses in /repo/pymoo/core/problem.py:314-341
* **M_Callback.v** - Model of /repo/pymoo/core/callback.py, /repo/pymoo/core/recorder.py and /repo/pymoo/core/initialization.py
* **M_Comb.v** - Model of the combinatorial problems /repo/pymoo/problems/single/traveling_salesman.py, flowshop_scheduling.py, knapsack.py. Exact arithmetic on reals; [None]: an exception. Entries of a route or job sequence are natural numbers (negative indices, which Python counts from the end, are not modelled). The visualisations and the random generators of instances are not modelled.
* **M_Complex.v** - Model of the complex step gradient: /repo/pymoo/gradient/grad_complex.py. What a problem computes is given by expressions in the variables; numpy evaluates them on complex numbers (pairs of reals; real arithmetic). The square root and the logarithm are modelled for numbers off the cut (positive real part). A problem sets the values of fixed names (F, G, H), given by lists of expressions; dictionaries as in M_Params. Names asked for without "d" which the problem does not set (numpy: infinity, gradient 0) are not modelled. [None] from a function: an exception.
* **M_Control.v** - Model of adaptive parameter control: /repo/pymoo/operators/control.py (ParameterControl, NoParameterControl, RandomParameterControl, EvolutionaryParameterControl, AgeBasedTournamentSelection, ParameterControlMating) together with [get] and [Variable.sample] of /repo/pymoo/core/variable.py. The controlled parameters are given as the flattened dictionary of the variables found in the operators (names and kinds, M_Mixed.vars; how they are found: M_Params.get_params). Individuals carry a dictionary of data ([Individual.data]). Random numbers are arguments. None: an exception.
* **M_Cross.v** - Model of the mask based crossovers (/repo/pymoo/operators/crossover/{ux,hux,pntx,expx,binx,nox}.py, /repo/pymoo/util/misc.py [crossover_mask], [row_at_least_once_true]) and of the crossover base class (/repo/pymoo/core/crossover.py). One row (mating) at a time: the numpy code treats the rows independently. Random numbers are arbitrary parameters; draws in [0,1) are rationals, [random_state.permutation(n)] is an arbitrary list (theorems assume it is a permutation of 0..n-1).
* **M_Crowding.v** - Model of /repo/pymoo/operators/survival/rank_and_crowding/metrics.py: calc_crowding_distance and FunctionalDiversity. Finite objective values, exact arithmetic; +inf explicit.
* **M_DF.v** - Model of the dynamic test problems DF1-DF14: /repo/pymoo/problems/dynamic/df.py, at the time [t] (self.time), in exact real arithmetic; one row of X at a time except for DF12, whose evaluation mixes the rows. Powers have non-negative bases and positive exponents. The fronts of DF9, DF12 and DF13 are thinned by get_PF (lines 436-450) to the non-dominated ones of the points listed here.
* **M_DNSGA.v** - Model of /repo/pymoo/algorithms/moo/dnsga2.py:18-87 [DNSGA2.setup, _infill, _advance] (dynamic NSGA-II) An individual is its variables and its stored objectives. The objective function in force during a generation is an argument [f] (it may differ from generation to generation: the callback of problems/dyn.py ticks the problem's clock between generations). Floating point numbers are binary64 (SpecFloat with precision 53); the order of numpy's summation is left open (M: [fsum_of]). The random draws, what the sampling, the mutation and the mating return are arguments; the survival is NSGA-II's (M_Survival, M_GDE3 [nsga2_advance]) and the optimum is M_RankOpt's.
* **M_DTLZ.v** - Model of the DTLZ problems: /repo/pymoo/problems/many/dtlz.py, one row of x at a time, in exact real arithmetic. The fronts of DTLZ5-7 for three objectives are files (Remote) and are not modelled; DTLZ7's random draws and the reference directions are arguments (without reference directions get_ref_dirs raises for more than three objectives).
* **M_Decomp.v** - Model of /repo/pymoo/core/decomposition.py and /repo/pymoo/decomposition/{asf,aasf,tchebicheff,weighted_sum,pbi,perp_dist,util}.py. Rational numbers with a rounding [rnd] after every operation ([rnd := fun x => x] is exact arithmetic); a sum over a row is evaluated along a tree [t] of additions, since numpy's order of summation depends on the length. NaN, infinities and overflow are not modelled. Rows have at least one entry (numpy raises on the maximum of an empty row).
* **M_Default.v** - Model of /repo/pymoo/termination/ftol.py, xtol.py, cv.py and default.py: the criteria that stop an optimisation when no termination is given. Numbers are exact rationals (the IGD between two sets of points, a mean of square roots, is an argument); NaN does not occur. An observation is what the criteria read from the algorithm: n_iter, the number of evaluations, problem.has_constraints(), and objectives, feasibility, constraint violation and (normalised, xtol.py:25-34) variables of the individuals in algorithm.opt.
* **M_Direct.v** - Model of the DIRECT algorithm, /repo/pymoo/algorithms/soo/nonconvex/direct.py. Exact arithmetic; objective values and constraint violations are finite. The sorters it calls (NonDominatedSorting and RankAndCrowdingSurvival, modelled elsewhere) and np.argsort of the ranks are arbitrary functions.
* **M_Display.v** - Model of /repo/pymoo/util/display/column.py, output.py, display.py, progress.py (the text printed with verbose=True), of the columns of single.py and multi.py, and of the lines of /repo/pymoo/core/algorithm.py that set the output up. A text is a list of characters. Floats are exact rationals, infinities or NaN; negative zero is not distinguished, and number * 1e5 is compared exactly. The % operator prints the correctly rounded (half to even) decimal, as CPython does.
* **M_Dominator.v** - Model of /repo/pymoo/util/dominator.py
* **M_Duplicate.v** - Model of /repo/pymoo/core/duplicate.py, /repo/pymoo/core/infill.py, /repo/pymoo/core/mating.py (call structure). Individuals are values of an arbitrary type [A] (object identity given by an injective [ident]). [close a b] stands for [D[a, b] <= epsilon] (NaN distances count as infinite, line 74) resp. [cmp_func(a, b) < epsilon].
* **M_Dyn.v** - Model of /repo/pymoo/problems/dyn.py (the clock of a dynamic test problem) together with the cache of its Pareto front, /repo/pymoo/util/cache.py:4-31 and /repo/pymoo/core/problem.py:326-332. [calc n t]: what _calc_pareto_front(n_pareto_points=n) computes at the time [t] (already in the form pareto_front returns it).
* **M_EPPSO.v** - Model of /repo/pymoo/algorithms/soo/nonconvex/pso_ep.py ([EPPSO], [Swarm], [get_neighbors]) and /repo/pymoo/algorithms/soo/nonconvex/nrbo.py ([NRBO]). Modelled: ranks, personal and local bests, messages between neighbours, the reported optimum; velocity and position of EPPSO and the final repair of NRBO in exact arithmetic; NRBO's step factor. Not modelled: the parameter control of the swarm (w, c1, c2 are arbitrary), the sliding windows [delta] (never read), the topology "random-adaptive" (not among the options of the class), NRBO's search rule (its result is an arbitrary vector).
* **M_ES.v** - Model of the evolution strategies: /repo/pymoo/algorithms/soo/nonconvex/es.py, sres.py, isres.py. Population level: individuals of any type; [surv pop n] the positions chosen by survival.do. Variation: one coordinate at a time, exact rational arithmetic; the log-normal factor of the step size is any positive number [e], normal numbers are any numbers [z].
* **M_Energy.v** - Model of /repo/pymoo/util/ref_dirs/energy.py [RieszEnergyReferenceDirectionFactory._step/_solve], ref_dirs/optimizer.py [Adam] and ref_dirs/misc.py (projections) over the real numbers: no rounding
* **M_Entropy.v** - Model of /repo/pymoo/operators/survival/rank_and_crowding/metrics.py:121-177 [calc_crowding_entropy], label "ce" (14-16), through FunctionalDiversity (41-70). Real numbers extended by the infinities and NaN, with the arithmetic rules of floats (exact instead of rounded).
* **M_Evaluate.v** - Model of /repo/pymoo/core/problem.py: Problem.evaluate, do, _evaluate_elementwise, _evaluate_vectorized, _format_dict, default_shape; and of the runners /repo/pymoo/parallelization/{starmap,joblib,dask,ray}.py. An array is the list of its rows, each row flattened; [None] from a function: an exception. The callback and kwargs are not modelled.
* **M_GDE3.v** - Model of GDE3 and NSDE: /repo/pymoo/algorithms/moo/gde3.py:49-69 [GDE3._advance] and /repo/pymoo/algorithms/moo/nsde.py:63-125 [VariantDE._do, _sample_F]. Individuals are of an arbitrary type; the survivors of [Survival.do] are those of M_Survival. A set of individuals is the list of their positions in [pop ++ infills]. The variables of a trial vector are rational numbers (exact arithmetic); random numbers are arguments. Not modelled: parsing of the variant string, a posterior mutation.
* **M_GProb.v** - Model of problems of the CEC 2006 suite: /repo/pymoo/problems/single/g.py (G1, G3, G4, G6, G7, G11, G12, G24). Solutions are functions of the index of the variable; real arithmetic. A problem: number of variables, bounds, objective, inequality constraints (feasible: not positive), equality constraints (feasible: zero), and what pareto_set() reports. pareto_front(): the objective there (lines 18-21; G1: -15, line 54).
* **M_HV.v** - Model of /repo/pymoo/indicators/hv/__init__.py (Hypervolume), hv/approximate.py (ApproximateHypervolume) and epsilon.py, with core/indicator.py. Exact rational arithmetic. The library moocore is external: [moo_hypervolume] and the epsilon functions stand for what it documents.
* **M_Heap.v** - Objects, attributes and [copy.deepcopy]: the part of Python's object model that /repo/pymoo/optimize.py, /repo/pymoo/core/algorithm.py (setup, save_history) and /repo/pymoo/core/meta.py rely on. A heap is a list of objects; the address of an object is its position; allocation appends. An object has a kind, the attributes it hides from copying, and its attributes. Lists are objects with one attribute per position. Immutable atoms (numbers, strings, functions, classes) are [VPrim].
* **M_Indicator.v** - Model of the distance indicators: /repo/pymoo/indicators/distance_indicator.py, gd.py, gd_plus.py, igd.py, igd_plus.py, /repo/pymoo/core/indicator.py, PreNormalization (/repo/pymoo/util/normalization.py:202-217) and vectorized_cdist (/repo/pymoo/util/misc.py:347-387). Exact real arithmetic. moocore's igd and igd_plus are external functions.
* **M_Individual.v** - Model of /repo/pymoo/core/individual.py: constraint violation and its cache. Exact arithmetic (rationals) instead of binary64.
* **M_KGB.v** - Model of /repo/pymoo/algorithms/moo/kgb.py (KGB-DMOEA) in exact rational arithmetic. A solution is its list of variables. The random draws, the classifier's answers (sklearn's GaussianNB), the objective function and the ranking of the non-dominated sort are arguments; the survival and the mating are those of NSGA-II and are not repeated here, nor is the dump of the archive to a file.
* **M_KKTPM.v** - Model of the Karush-Kuhn-Tucker proximity measure: /repo/pymoo/indicators/kktpm.py. Arrays are functions of their indices, with the dimensions given separately; real arithmetic. np.linalg.qr and np.linalg.solve are represented by an exact solver, given as an argument (None: LinAlgError, the matrix is singular).
* **M_MCDM.v** - Model of the decision making methods: /repo/pymoo/mcdm/{pseudo_weights,high_tradeoff,compromise_programming}.py and /repo/pymoo/core/decision_making.py, called through Indicator.do (/repo/pymoo/core/indicator.py) with zero_to_one=False. Exact real arithmetic with NaN and +inf where a division by zero produces them; a matrix is the list of its rows, all of length m. [None]: an exception. The kd-tree queries of scipy are modelled by what they return.
* **M_MOEAD.v** - Model of /repo/pymoo/algorithms/moo/moead.py (MOEAD, ParallelMOEAD, NeighborhoodSelection) on top of LoopwiseAlgorithm (/repo/pymoo/core/algorithm.py:371-395) and Decomposition.do (M_Decomp). Individuals carry an identity and their objectives; the offspring produced by the mating is arbitrary. Objectives are finite (rational) numbers; the scalarisation [sc] and the rounding [rnd] are arbitrary. Random numbers are arguments.
* **M_MOPSO.v** - Model of the particle swarms for several objectives: /repo/pymoo/algorithms/moo/mopso_cd.py ([MOPSO_CD]) and /repo/pymoo/algorithms/moo/cmopso.py ([CrowdingDistanceTournamentSurvival], [cmopso_equation], [CMOPSO]), with the archive update of /repo/pymoo/core/algorithm.py:243-245. Modelled: the crowding tournaments, the archive updates, the optimum after each iteration, personal bests, leaders, velocities and positions, the elite archive of CMOPSO. Not modelled: the extra population that [MOPSO_CD._setup] samples and evaluates (it is replaced by the initial infills and reaches neither archive nor optimum), the [except] branches (the guarded code does not raise), the angle computation (its result is the parameter [key]), the mutation of CMOPSO. Velocities and positions in exact arithmetic.
* **M_Minimize.v** - Model of /repo/pymoo/optimize.py (minimize), of what Algorithm.setup, _post_advance (save_history) of /repo/pymoo/core/algorithm.py and Meta of /repo/pymoo/core/meta.py do to the objects involved.
* **M_Mixed.v** - Model of mixed variables: /repo/pymoo/core/mixed.py (MixedVariableMating._do, MixedVariableSampling, MixedVariableDuplicateElimination), the sampling of /repo/pymoo/core/variable.py and the default operators (/repo/pymoo/operators/crossover/{sbx,ux}.py, mutation/{pm,bitflip,rm}.py, repair/rounding.py). X is a dictionary from names to values. Numbers are rationals; the value which SBX and PM compute before it is set back to the bounds is arbitrary (its arithmetic: M_Bounds); random numbers are arguments. None: an exception.
* **M_NDS.v** - Model of /repo/pymoo/functions/standard/non_dominated_sorting.py and /repo/pymoo/util/nds/*.py
* **M_NSGA3.v** - Model of /repo/pymoo/algorithms/moo/nsga3.py: ReferenceDirectionSurvival, niching, associate_to_niches, calc_niche_count, and of /repo/pymoo/functions/standard/calc_perpendicular_distance.py. Individuals are positions; a niche is the index of a reference direction. Distances are binary64 numbers; how they are computed is modelled separately in exact real arithmetic (M_NSGA3R). Random numbers: [perm k n] is the permutation of n drawn when k survivors have been chosen, [shuf k l] the shuffled list.
* **M_NSGA3R.v** - The association of NSGA-III in exact real arithmetic: /repo/pymoo/algorithms/moo/nsga3.py:264-277 and /repo/pymoo/functions/standard/calc_perpendicular_distance.py:16-24. (Rounding errors are not modelled.)
* **M_Nelder.v** - Model of the Nelder-Mead search, /repo/pymoo/algorithms/soo/nonconvex/nelder.py, of max_alpha (/repo/pymoo/util/vectors.py:6-42) and of the parts of the local search framework it uses (/repo/pymoo/algorithms/base/local.py, core/replacement.py:11-22, ga.py:25-34, core/algorithm.py:371-395). Exact rational arithmetic; bounds are finite numbers (an entry of a bound vector is never infinite). A generator function is a value of type [co]: it returns, or hands out points to be evaluated and continues with the evaluated individuals. Evaluation is arbitrary (it may even answer differently when asked twice). The termination (nelder.py:24-63) is not part of the model.
* **M_Niche.v** - Model of /repo/pymoo/algorithms/soo/nonconvex/ga_niching.py: the epsilon-clearing survival of NicheGA and its optimum
* **M_Norm.v** - Model of /repo/pymoo/util/normalization.py and of HyperplaneNormalization (/repo/pymoo/algorithms/moo/nsga3.py:292-377, the same functions get_extreme_points_c and get_nadir_point as normalization.py:235-287), and of /repo/pymoo/problems/zero_to_one.py. Exact arithmetic; NaN as a bound is [None]. np.linalg.solve is an arbitrary function ([None]: LinAlgError). [1 / 0] is +inf ([None] in a list of intercepts; a negative zero, which would give -inf, is not modelled).
* **M_Omni.v** - Model of /repo/pymoo/algorithms/moo/omni.py: the Omni-Optimizer. Exact rational arithmetic, finite values.
* **M_Optimum.v** - Model of /repo/pymoo/util/optimum.py, /repo/pymoo/util/archive.py, Algorithm.result and Algorithm._set_optimum (/repo/pymoo/core/algorithm.py:249-299, 308-309), FitnessSurvival (/repo/pymoo/algorithms/soo/nonconvex/ga.py:25-34) and GeneticAlgorithm (/repo/pymoo/algorithms/base/genetic.py:70-131). Individuals are values of an arbitrary type with objectives, violation and feasibility. [None]: an exception.
* **M_PINSGA.v** - Model of /repo/pymoo/util/vf_dominator.py and of the decision-maker part of /repo/pymoo/algorithms/moo/pinsga2.py
* **M_Params.v** - Model of /repo/pymoo/core/parameters.py. Python dictionaries with string keys are association lists in insertion order; [dset] is assignment d[k] = v. [None] from a function: an exception (KeyError, AttributeError) or, for [hierarchical], running out of the fuel [length of the keys] (shown never to happen).
* **M_Pattern.v** - Model of the pattern search, /repo/pymoo/algorithms/soo/nonconvex/pattern.py (with base/local.py and util/optimum.py for one objective). Same conventions as M_Nelder: exact rational arithmetic, finite bounds, generators as values of [co], arbitrary evaluation. The order [K] of the variables in an exploration comes from a generator that is NOT the algorithm's (see [exploration_move]); it is an argument.
* **M_Perm.v** - Model of the permutation operators: /repo/pymoo/operators/crossover/ox.py, /repo/pymoo/operators/crossover/erx.py, /repo/pymoo/operators/mutation/inversion.py. Values are integers; random numbers are arbitrary parameters.
* **M_Population.v** - Model of /repo/pymoo/core/population.py and /repo/pymoo/core/evaluator.py. Individuals are mutable objects: a heap maps references to individuals, a population is an array of references (slicing and merging a population share the objects). Attribute values are of an abstract type [V]; [None] is an attribute never set.
* **M_Pruning.v** - Model of the pruning crowding metrics: /repo/pymoo/functions/standard/mnn.py [calc_mnn, calc_2nn, calc_mnn_base], /repo/pymoo/functions/standard/pruning_cd.py [calc_pcd] and their wrapper metrics.py:73-82 [FuncionalDiversityMNN] (labels "mnn", "2nn", "pcd" of NSGA-II's and GDE3's survival). Finite objective values, exact arithmetic; +inf explicit ([PInf]), NaN is [None]. [nsort]: numpy's partition at the positions 1..M, whose values at these positions are those of the sorted row; [asort]: np.argsort(kind="mergesort").
* **M_RMetric.v** - Model of /repo/pymoo/indicators/rmetric.py (R-IGD and R-HV) and spacing.py. R-metric: exact rationals; euclidean distances are only compared, so their squares are used. The indicators of the two final sets, [igd reference points] (indicators/igd.py, see M_Indicator) and [hv ref_point points] (external, [None] = it raised), are arguments. [w] is a number: a sequence would be doubled by [2 * w_] (rmetric.py:26-27); 0 counts as not given.
* **M_RNSGA.v** - Model of /repo/pymoo/algorithms/moo/rnsga2.py: [RankAndModifiedCrowdingSurvival._do] and [calc_norm_pref_distance]. Modelled: ranking by distance to the reference points, epsilon clearing, cut of the splitting front, crowding; the reference points over the generations; the distance in real arithmetic. The distance matrices are arguments of the survival (binary64 numbers); the set of reference points must not be empty (np.argmin raises otherwise). Not modelled: [get_extreme_points_c] (C61), what np.round does to non-integers beyond halves.
* **M_RNSGA3.v** - Model of /repo/pymoo/algorithms/moo/rnsga3.py: [AspirationPointSurvival._do], [get_ref_dirs_from_points], [line_plane_intersection], [RNSGA3.__init__] (population size) and of [NSGA3._set_optimum] (/repo/pymoo/algorithms/moo/nsga3.py:125-130), which R-NSGA-III inherits. Reference directions in exact real arithmetic (the normalised reference points must be finite, i.e. nadir <> ideal in every objective); the survival on binary64 distances as in M_NSGA3; ideal, worst and nadir point in exact rational arithmetic as in M_Norm.
* **M_RVEA.v** - Model of RVEA: /repo/pymoo/algorithms/moo/rvea.py, in exact real arithmetic (rounding errors are not modelled). NaN is [None]: a reference vector of length zero divided by its length is a row of NaN. A population is its list of objective vectors; survivors are positions. (n_gen / n_max_gen) ** alpha is a parameter [w]; the attributes written into the individuals (theta, apd, niche, opt) are not modelled.
* **M_RandSort.v** - Model of /repo/pymoo/util/randomized_argsort.py and /repo/pymoo/functions/standard/stochastic_ranking.py. Floats as in numpy (NaN included); arrays are lists; random choices are parameters.
* **M_Random.v** - Model of RandomSearch: /repo/pymoo/algorithms/soo/nonconvex/random_search.py, with the parts of Algorithm it uses (/repo/pymoo/core/algorithm.py:207-246 [advance], 308-309 [_set_optimum]). The solutions of an iteration (sampled, evaluated) are arbitrary.
* **M_RankOpt.v** - Model of /repo/pymoo/algorithms/moo/nsga2.py:123-127 [NSGA2._set_optimum] (the same lines in age.py; used by NSGA-II, R-NSGA-II, NSDE, NSDE-R, Omni-optimizer) after a survival with ranks, for any subclass [_do] of [Survival]; [rank0] says which solutions it gave rank 0 to.
* **M_RealOps.v** - The arithmetic of SBX and polynomial mutation in exact real arithmetic (no rounding): /repo/pymoo/operators/crossover/sbx.py:47-75, /repo/pymoo/operators/mutation/pm.py:47-80. [np_power] is numpy's power on non-negative bases with positive or negative real exponent (0 for base 0).
* **M_RefDirs.v** - Model of the reference direction generators: /repo/pymoo/util/reference_direction.py, /repo/pymoo/util/ref_dirs/das_dennis.py. Arithmetic is exact (rational). A matrix is the list of its rows.
* **M_RefDirs2.v** - Model of /repo/pymoo/util/reference_direction.py: select_points_with_maximum_distance; /repo/pymoo/util/ref_dirs/incremental.py; /repo/pymoo/util/ref_dirs/misc.py: the projections. Exact arithmetic.
* **M_Repro.v** - Where the library takes its random numbers from (C51) An operator is a program that asks a numpy Generator for numbers. Which generator it asks is decided at every call: pymoo/util/__init__.py:29-34 (the wrapper of the decorator [default_random_state]) uses the passed [random_state] if there is one, otherwise [np.random.default_rng(seed)] of the given seed, and an unseeded generator (operating system entropy) when there is none.
* **M_Roulette.v** - Model of /repo/pymoo/util/roulette.py and /repo/pymoo/util/clearing.py
* **M_RoundOps.v** - Scaling a random number into a box in rounded arithmetic (binary64 with unbounded exponent range upwards): /repo/pymoo/operators/sampling/rnd.py:25-28 and 51-54 ([X = xl + (xu - xl) * X]). Every operation rounds to nearest, ties to even.
* **M_Running.v** - Model of /repo/pymoo/util/running_metric.py [RunningMetric] and /repo/pymoo/indicators/migd.py [MIGD]. Objectives are exact rationals; the only rounding kept is the addition of 1e-16 ([bump]), because it decides between two branches; a division by zero gives infinity or NaN as in numpy.
* **M_SMS.v** - Model of the SMS-EMOA survival: /repo/pymoo/algorithms/moo/sms.py, LeastHypervolumeContributionSurvival. A population is given by its objective matrix; fronts and survivors are lists of positions. moocore.hv_contributions (an external library) and the non-dominated sorter are parameters; [contrib front] are the contributions of the members of [front], after normalisation, to its hypervolume.
* **M_SPEA2.v** - Model of the SPEA2 survival: /repo/pymoo/algorithms/moo/spea2.py, SPEA2Survival. Positions in the population; [dist i j] the (possibly normalised) Euclidean distance of two individuals, the diagonal being infinite (None). np.argsort of the fitness values is a parameter. The value -1 given to the fitness of extreme points (line 108) is used by the tournament only and not modelled.
* **M_Sampling.v** - Model of the samplings: /repo/pymoo/operators/sampling/rnd.py, lhs.py. A matrix is a list of rows. Random numbers are parameters ([U i j] is the draw for row i, column j). Arithmetic is exact (rational); see M_RoundOps for binary64 rounding.
* **M_Selection.v** - Model of parent selection: /repo/pymoo/operators/selection/{tournament,rnd,des}.py, the binary tournaments of the algorithms (/repo/pymoo/algorithms/moo/{nsga2,nsga3,unsga3,ctaea,sms,spea2}.py, soo/nonconvex/{ga,ga_niching}.py, operators/control.py) and [random_permutations] (/repo/pymoo/util/misc.py:107-129). Individuals are given by their index and a record of the values the comparisons read; a random choice [random_state.choice([a, b])] is an explicit boolean ([true] = b).
* **M_Spacing.v** - Model of /repo/pymoo/indicators/spacing.py through core/indicator.py:18-31 (no normalisation, the default zero_to_one=False). Exact reals.
* **M_Static.v** - Model of /repo/pymoo/problems/static.py, /repo/pymoo/problems/functional.py and /repo/pymoo/problems/multi_to_single.py, on top of M_Evaluate and M_Decomp. The Pareto front and set of FunctionalProblem and the keyword arguments of the evaluation are not modelled.
* **M_Survival.v** - Model of /repo/pymoo/core/survival.py, /repo/pymoo/operators/survival/rank_and_crowding/classes.py, /repo/pymoo/core/replacement.py, /repo/pymoo/util/randomized_argsort.py (method "numpy"). A population is a list of individuals of an arbitrary type [A]; attributes are given by functions. A set of survivors is the list of their positions in the population ([pop[survivors]] in the code).
* **M_Swarm.v** - Model of differential evolution, /repo/pymoo/algorithms/soo/nonconvex/de.py, and particle swarm optimisation, /repo/pymoo/algorithms/soo/nonconvex/pso.py. The population level is generic: individuals of any type with a view (objective, violation, feasibility); the variation is in exact rational arithmetic, one coordinate at a time. The parent indices come from fast_fill_random (M_Selection), the polynomial mutation is in M_RealOps, parameter control is not modelled.
* **M_SwarmR.v** - Model of the adaptive inertia weight of particle swarm optimisation, /repo/pymoo/algorithms/soo/nonconvex/pso.py:338, over the real numbers
* **M_Termination.v** - Model of /repo/pymoo/core/termination.py, /repo/pymoo/termination/*.py, /repo/pymoo/util/sliding_window.py. Progress values are exact rationals ([n / N] is a float in Python; see C34_binary64 for the effect of rounding). [None] as a result is an exception (failed assertion, division by zero, max of an empty list).
* **M_VF.v** - Model of /repo/pymoo/util/value_functions.py: the linear and the polynomial value function, the constraints they are fitted under, and the test whether the fit is accepted. Exact rational arithmetic instead of binary64; the optimiser (scipy) is not modelled: what is modelled is what its result has to satisfy to be accepted.
* **M_WFG.v** - Model of the WFG problems: /repo/pymoo/problems/many/wfg.py, one row of X at a time, in exact real arithmetic. l = n_var - k (the default); arrays of one value per row are single reals here. Powers have non-negative bases (0 to a positive power is 0). The random draws are arguments.
* **M_Wolfe.v** - Model of wolfe_line_search, /repo/pymoo/algorithms/soo/univariate/wolfe.py:101-161 (the class WolfeSearch, lines 12-98, is the same code on a LineSearchProblem). Exact real arithmetic. [phi a] is the objective at sol.X + a * direction, [dphi a] the product of its gradient with the direction (both at a = 0 for the starting point).
* **M_Wrappers.v** - Model of the problem wrappers: /repo/pymoo/constraints/as_obj.py, as_penalty.py, from_bounds.py and of the adaptive constraint handling /repo/pymoo/constraints/adaptive.py, eps.py. Exact rational arithmetic. Arrays carry their dimension; a dictionary is an association list; [None] from a function: an exception. The wrapped problem is given by what its _evaluate stores (already formatted, see M_Evaluate for the formatting). Gradients (dG in from_bounds.py) are not modelled.
* **M_ZDT.v** - Model of the ZDT problems: /repo/pymoo/problems/multi/zdt.py, one row of X at a time, in exact real arithmetic. anp.power(v, 0.5) is the square root, anp.power(v, 0.25) the fourth root (the arguments are not negative inside the bounds).

## 6. Assumptions (output of Print Assumptions, generated by tools/mkdesign.py)

683 of the 866 theorems are **closed under the global context** (no axiom at all). The others use only axioms of the standard
library (real numbers, through `Reals`/Flocq):

* `C26_sbx_exact`: `ClassicalDedekindReals.sig_forall_dec`, `ClassicalDedekindReals.sig_not_dec`, `Classical_Prop.classic`, `FunctionalExtensionality.functional_extensionality_dep`
* `C26_pm_exact`: `ClassicalDedekindReals.sig_forall_dec`, `ClassicalDedekindReals.sig_not_dec`, `Classical_Prop.classic`, `FunctionalExtensionality.functional_extensionality_dep`
* `C27_float_rounded`: `ClassicalDedekindReals.sig_forall_dec`, `ClassicalDedekindReals.sig_not_dec`, `Classical_Prop.classic`, `FunctionalExtensionality.functional_extensionality_dep`
* `C34_binary64`: `ClassicalDedekindReals.sig_forall_dec`, `ClassicalDedekindReals.sig_not_dec`, `Classical_Prop.classic`, `FunctionalExtensionality.functional_extensionality_dep`
* `C59_association`: `ClassicalDedekindReals.sig_forall_dec`, `ClassicalDedekindReals.sig_not_dec`, `FunctionalExtensionality.functional_extensionality_dep`
* `C59_normalised`: `ClassicalDedekindReals.sig_forall_dec`, `FunctionalExtensionality.functional_extensionality_dep`
* `C65_gd`: `ClassicalDedekindReals.sig_forall_dec`, `ClassicalDedekindReals.sig_not_dec`, `FunctionalExtensionality.functional_extensionality_dep`
* `C65_igd`: `ClassicalDedekindReals.sig_forall_dec`, `ClassicalDedekindReals.sig_not_dec`, `FunctionalExtensionality.functional_extensionality_dep`
* `C65_zero`: `ClassicalDedekindReals.sig_forall_dec`, `ClassicalDedekindReals.sig_not_dec`, `FunctionalExtensionality.functional_extensionality_dep`
* `C65_add`: `ClassicalDedekindReals.sig_forall_dec`, `ClassicalDedekindReals.sig_not_dec`, `FunctionalExtensionality.functional_extensionality_dep`
* `C65_compliant`: `ClassicalDedekindReals.sig_forall_dec`, `ClassicalDedekindReals.sig_not_dec`, `FunctionalExtensionality.functional_extensionality_dep`
* `C65_igd_compliance_refuted`: `ClassicalDedekindReals.sig_forall_dec`, `ClassicalDedekindReals.sig_not_dec`, `FunctionalExtensionality.functional_extensionality_dep`
* `C65_empty`: `ClassicalDedekindReals.sig_forall_dec`, `ClassicalDedekindReals.sig_not_dec`, `FunctionalExtensionality.functional_extensionality_dep`
* `C65_empty_refuted`: `ClassicalDedekindReals.sig_forall_dec`, `ClassicalDedekindReals.sig_not_dec`, `FunctionalExtensionality.functional_extensionality_dep`
* `C67_golden`: `ClassicalDedekindReals.sig_forall_dec`, `ClassicalDedekindReals.sig_not_dec`, `FunctionalExtensionality.functional_extensionality_dep`
* `C67_unimodal`: `ClassicalDedekindReals.sig_forall_dec`, `ClassicalDedekindReals.sig_not_dec`, `FunctionalExtensionality.functional_extensionality_dep`
* `C67_best`: `ClassicalDedekindReals.sig_forall_dec`, `ClassicalDedekindReals.sig_not_dec`, `FunctionalExtensionality.functional_extensionality_dep`
* `C67_best_refuted`: `ClassicalDedekindReals.sig_forall_dec`, `ClassicalDedekindReals.sig_not_dec`, `FunctionalExtensionality.functional_extensionality_dep`
* `C67_constructor_refuted`: `ClassicalDedekindReals.sig_forall_dec`, `FunctionalExtensionality.functional_extensionality_dep`
* `C67_ends`: `ClassicalDedekindReals.sig_forall_dec`, `FunctionalExtensionality.functional_extensionality_dep`
* `C67_midpoint`: `ClassicalDedekindReals.sig_forall_dec`, `FunctionalExtensionality.functional_extensionality_dep`
* `C67_midpoint_refuted`: `ClassicalDedekindReals.sig_forall_dec`, `FunctionalExtensionality.functional_extensionality_dep`
* `C67_interpolation_refuted`: `ClassicalDedekindReals.sig_forall_dec`, `FunctionalExtensionality.functional_extensionality_dep`
* `C67_interpolation_actual`: `ClassicalDedekindReals.sig_forall_dec`, `FunctionalExtensionality.functional_extensionality_dep`
* `C68_result_partial`: `ClassicalDedekindReals.sig_forall_dec`, `FunctionalExtensionality.functional_extensionality_dep`
* `C68_wolfe_refuted`: `ClassicalDedekindReals.sig_forall_dec`, `FunctionalExtensionality.functional_extensionality_dep`
* `C68_diverges`: `ClassicalDedekindReals.sig_forall_dec`, `FunctionalExtensionality.functional_extensionality_dep`
* `C68_not_evaluated_refuted`: `ClassicalDedekindReals.sig_forall_dec`, `FunctionalExtensionality.functional_extensionality_dep`
* `C78_inertia`: `ClassicalDedekindReals.sig_forall_dec`, `ClassicalDedekindReals.sig_not_dec`, `Classical_Prop.classic`, `FunctionalExtensionality.functional_extensionality_dep`
* `C82_gamma`: `ClassicalDedekindReals.sig_forall_dec`, `ClassicalDedekindReals.sig_not_dec`, `Classical_Prop.classic`, `FunctionalExtensionality.functional_extensionality_dep`
* `C82_survivors`: `ClassicalDedekindReals.sig_forall_dec`, `ClassicalDedekindReals.sig_not_dec`, `Classical_Prop.classic`, `FunctionalExtensionality.functional_extensionality_dep`
* `C82_ideal`: `ClassicalDedekindReals.sig_forall_dec`, `ClassicalDedekindReals.sig_not_dec`, `Classical_Prop.classic`, `FunctionalExtensionality.functional_extensionality_dep`
* `C82_nadir`: `ClassicalDedekindReals.sig_forall_dec`, `ClassicalDedekindReals.sig_not_dec`, `Classical_Prop.classic`, `FunctionalExtensionality.functional_extensionality_dep`
* `C82_adapt`: `ClassicalDedekindReals.sig_forall_dec`, `ClassicalDedekindReals.sig_not_dec`, `Classical_Prop.classic`, `FunctionalExtensionality.functional_extensionality_dep`
* `C82_init`: `ClassicalDedekindReals.sig_forall_dec`, `ClassicalDedekindReals.sig_not_dec`, `Classical_Prop.classic`, `FunctionalExtensionality.functional_extensionality_dep`
* `C82_collapse`: `ClassicalDedekindReals.sig_forall_dec`, `ClassicalDedekindReals.sig_not_dec`, `Classical_Prop.classic`, `FunctionalExtensionality.functional_extensionality_dep`
* `C82_constant_objective`: `ClassicalDedekindReals.sig_forall_dec`, `ClassicalDedekindReals.sig_not_dec`, `Classical_Prop.classic`, `FunctionalExtensionality.functional_extensionality_dep`
* `C82_population`: `ClassicalDedekindReals.sig_forall_dec`, `ClassicalDedekindReals.sig_not_dec`, `Classical_Prop.classic`, `FunctionalExtensionality.functional_extensionality_dep`
* `C82_extreme_refuted`: `ClassicalDedekindReals.sig_forall_dec`, `ClassicalDedekindReals.sig_not_dec`, `Classical_Prop.classic`, `FunctionalExtensionality.functional_extensionality_dep`
* `C82_dominated_refuted`: `ClassicalDedekindReals.sig_forall_dec`, `ClassicalDedekindReals.sig_not_dec`, `Classical_Prop.classic`, `FunctionalExtensionality.functional_extensionality_dep`
* `C82_feasible_first_refuted`: `ClassicalDedekindReals.sig_forall_dec`, `ClassicalDedekindReals.sig_not_dec`, `Classical_Prop.classic`, `FunctionalExtensionality.functional_extensionality_dep`
* `C85_sphere`: `ClassicalDedekindReals.sig_forall_dec`, `FunctionalExtensionality.functional_extensionality_dep`
* `C85_ackley`: `ClassicalDedekindReals.sig_forall_dec`, `ClassicalDedekindReals.sig_not_dec`, `Classical_Prop.classic`, `FunctionalExtensionality.functional_extensionality_dep`
* `C85_griewank`: `ClassicalDedekindReals.sig_forall_dec`, `ClassicalDedekindReals.sig_not_dec`, `FunctionalExtensionality.functional_extensionality_dep`
* `C85_rastrigin`: `ClassicalDedekindReals.sig_forall_dec`, `ClassicalDedekindReals.sig_not_dec`, `FunctionalExtensionality.functional_extensionality_dep`
* `C85_zakharov`: `ClassicalDedekindReals.sig_forall_dec`, `FunctionalExtensionality.functional_extensionality_dep`
* `C85_rosenbrock`: `ClassicalDedekindReals.sig_forall_dec`, `FunctionalExtensionality.functional_extensionality_dep`
* `C85_himmelblau`: `ClassicalDedekindReals.sig_forall_dec`, `FunctionalExtensionality.functional_extensionality_dep`
* `C85_schwefel`: `ClassicalDedekindReals.sig_forall_dec`, `ClassicalDedekindReals.sig_not_dec`, `Classical_Prop.classic`, `FunctionalExtensionality.functional_extensionality_dep`
* `C85_schwefel_set`: `ClassicalDedekindReals.sig_forall_dec`, `ClassicalDedekindReals.sig_not_dec`, `Classical_Prop.classic`, `FunctionalExtensionality.functional_extensionality_dep`
* `C86_zdt1`: `ClassicalDedekindReals.sig_forall_dec`, `ClassicalDedekindReals.sig_not_dec`, `FunctionalExtensionality.functional_extensionality_dep`
* `C86_zdt2`: `ClassicalDedekindReals.sig_forall_dec`, `FunctionalExtensionality.functional_extensionality_dep`
* `C86_zdt3`: `ClassicalDedekindReals.sig_forall_dec`, `ClassicalDedekindReals.sig_not_dec`, `FunctionalExtensionality.functional_extensionality_dep`
* `C86_zdt4`: `ClassicalDedekindReals.sig_forall_dec`, `ClassicalDedekindReals.sig_not_dec`, `FunctionalExtensionality.functional_extensionality_dep`
* `C86_zdt6`: `ClassicalDedekindReals.sig_forall_dec`, `ClassicalDedekindReals.sig_not_dec`, `Classical_Prop.classic`, `FunctionalExtensionality.functional_extensionality_dep`
* `C86_zdt5`: `ClassicalDedekindReals.sig_forall_dec`, `FunctionalExtensionality.functional_extensionality_dep`
* `C86_zdt5_bits_refuted`: `ClassicalDedekindReals.sig_forall_dec`, `FunctionalExtensionality.functional_extensionality_dep`
* `C86_zdt3_refuted`: `ClassicalDedekindReals.sig_forall_dec`, `ClassicalDedekindReals.sig_not_dec`, `Classical_Prop.classic`, `FunctionalExtensionality.functional_extensionality_dep`
* `C87_dtlz1`: `ClassicalDedekindReals.sig_forall_dec`, `ClassicalDedekindReals.sig_not_dec`, `FunctionalExtensionality.functional_extensionality_dep`
* `C87_dtlz2`: `ClassicalDedekindReals.sig_forall_dec`, `ClassicalDedekindReals.sig_not_dec`, `Classical_Prop.classic`, `FunctionalExtensionality.functional_extensionality_dep`
* `C87_dtlz3`: `ClassicalDedekindReals.sig_forall_dec`, `ClassicalDedekindReals.sig_not_dec`, `Classical_Prop.classic`, `FunctionalExtensionality.functional_extensionality_dep`
* `C87_dtlz4`: `ClassicalDedekindReals.sig_forall_dec`, `ClassicalDedekindReals.sig_not_dec`, `Classical_Prop.classic`, `FunctionalExtensionality.functional_extensionality_dep`
* `C87_dtlz5`: `ClassicalDedekindReals.sig_forall_dec`, `ClassicalDedekindReals.sig_not_dec`, `FunctionalExtensionality.functional_extensionality_dep`
* `C87_dtlz6`: `ClassicalDedekindReals.sig_forall_dec`, `ClassicalDedekindReals.sig_not_dec`, `Classical_Prop.classic`, `FunctionalExtensionality.functional_extensionality_dep`
* `C87_dtlz7`: `ClassicalDedekindReals.sig_forall_dec`, `ClassicalDedekindReals.sig_not_dec`, `FunctionalExtensionality.functional_extensionality_dep`
* `C87_dtlz7_refuted`: `ClassicalDedekindReals.sig_forall_dec`, `ClassicalDedekindReals.sig_not_dec`, `FunctionalExtensionality.functional_extensionality_dep`
* `C87_scaled`: `ClassicalDedekindReals.sig_forall_dec`, `FunctionalExtensionality.functional_extensionality_dep`
* `C87_convex`: `ClassicalDedekindReals.sig_forall_dec`, `FunctionalExtensionality.functional_extensionality_dep`
* `C87_scaled_convex_dtlz`: `ClassicalDedekindReals.sig_forall_dec`, `ClassicalDedekindReals.sig_not_dec`, `Classical_Prop.classic`, `FunctionalExtensionality.functional_extensionality_dep`
* `C87_inverted`: `ClassicalDedekindReals.sig_forall_dec`, `ClassicalDedekindReals.sig_not_dec`, `FunctionalExtensionality.functional_extensionality_dep`
* `C88_bnh`: `ClassicalDedekindReals.sig_forall_dec`, `FunctionalExtensionality.functional_extensionality_dep`
* `C88_srn`: `ClassicalDedekindReals.sig_forall_dec`, `FunctionalExtensionality.functional_extensionality_dep`
* `C88_srn_refuted`: `ClassicalDedekindReals.sig_forall_dec`, `FunctionalExtensionality.functional_extensionality_dep`
* `C88_sympart`: `ClassicalDedekindReals.sig_forall_dec`, `ClassicalDedekindReals.sig_not_dec`, `FunctionalExtensionality.functional_extensionality_dep`
* `C88_sympart_refuted`: `ClassicalDedekindReals.sig_forall_dec`, `ClassicalDedekindReals.sig_not_dec`, `FunctionalExtensionality.functional_extensionality_dep`
* `C88_omnitest`: `ClassicalDedekindReals.sig_forall_dec`, `ClassicalDedekindReals.sig_not_dec`, `FunctionalExtensionality.functional_extensionality_dep`
* `C88_beam_refuted`: `ClassicalDedekindReals.sig_forall_dec`, `FunctionalExtensionality.functional_extensionality_dep`
* `C88_vessel_refuted`: `ClassicalDedekindReals.sig_forall_dec`, `ClassicalDedekindReals.sig_not_dec`, `Classical_Prop.classic`, `FunctionalExtensionality.functional_extensionality_dep`
* `C88_mw1`: `ClassicalDedekindReals.sig_forall_dec`, `ClassicalDedekindReals.sig_not_dec`, `Classical_Prop.classic`, `FunctionalExtensionality.functional_extensionality_dep`
* `C88_mw2`: `ClassicalDedekindReals.sig_forall_dec`, `ClassicalDedekindReals.sig_not_dec`, `FunctionalExtensionality.functional_extensionality_dep`
* `C88_mw4`: `ClassicalDedekindReals.sig_forall_dec`, `ClassicalDedekindReals.sig_not_dec`, `Classical_Prop.classic`, `FunctionalExtensionality.functional_extensionality_dep`
* `C88_mw8`: `ClassicalDedekindReals.sig_forall_dec`, `ClassicalDedekindReals.sig_not_dec`, `Classical_Prop.classic`, `FunctionalExtensionality.functional_extensionality_dep`
* `C89_tsp_length`: `ClassicalDedekindReals.sig_forall_dec`, `ClassicalDedekindReals.sig_not_dec`, `FunctionalExtensionality.functional_extensionality_dep`
* `C89_tsp_rotate`: `ClassicalDedekindReals.sig_forall_dec`, `ClassicalDedekindReals.sig_not_dec`, `FunctionalExtensionality.functional_extensionality_dep`
* `C89_tsp_reverse`: `ClassicalDedekindReals.sig_forall_dec`, `ClassicalDedekindReals.sig_not_dec`, `FunctionalExtensionality.functional_extensionality_dep`
* `C89_tsp_lower`: `ClassicalDedekindReals.sig_forall_dec`, `ClassicalDedekindReals.sig_not_dec`, `FunctionalExtensionality.functional_extensionality_dep`
* `C89_tsp_bounds_refuted`: `ClassicalDedekindReals.sig_forall_dec`, `ClassicalDedekindReals.sig_not_dec`, `FunctionalExtensionality.functional_extensionality_dep`
* `C89_flowshop_schedule`: `ClassicalDedekindReals.sig_forall_dec`, `FunctionalExtensionality.functional_extensionality_dep`
* `C89_flowshop_makespan`: `ClassicalDedekindReals.sig_forall_dec`, `FunctionalExtensionality.functional_extensionality_dep`
* `C89_knapsack`: `ClassicalDedekindReals.sig_forall_dec`, `FunctionalExtensionality.functional_extensionality_dep`
* `C90_pseudo_weights`: `ClassicalDedekindReals.sig_forall_dec`, `FunctionalExtensionality.functional_extensionality_dep`
* `C90_pseudo_weights_constant_refuted`: `ClassicalDedekindReals.sig_forall_dec`, `FunctionalExtensionality.functional_extensionality_dep`
* `C90_pseudo_weights_worst_refuted`: `ClassicalDedekindReals.sig_forall_dec`, `FunctionalExtensionality.functional_extensionality_dep`
* `C90_pseudo_weights_units`: `ClassicalDedekindReals.sig_forall_dec`, `FunctionalExtensionality.functional_extensionality_dep`
* `C90_outliers`: `ClassicalDedekindReals.sig_forall_dec`, `ClassicalDedekindReals.sig_not_dec`, `FunctionalExtensionality.functional_extensionality_dep`
* `C90_tradeoffs`: `ClassicalDedekindReals.sig_forall_dec`, `ClassicalDedekindReals.sig_not_dec`, `FunctionalExtensionality.functional_extensionality_dep`
* `C90_tradeoff_few_refuted`: `ClassicalDedekindReals.sig_forall_dec`, `ClassicalDedekindReals.sig_not_dec`, `FunctionalExtensionality.functional_extensionality_dep`
* `C90_epsilon_refuted`: `ClassicalDedekindReals.sig_forall_dec`, `ClassicalDedekindReals.sig_not_dec`, `FunctionalExtensionality.functional_extensionality_dep`
* `C97_normalization`: `ClassicalDedekindReals.sig_forall_dec`, `FunctionalExtensionality.functional_extensionality_dep`
* `C97_distance`: `ClassicalDedekindReals.sig_forall_dec`, `ClassicalDedekindReals.sig_not_dec`, `FunctionalExtensionality.functional_extensionality_dep`
* `C98_directions`: `ClassicalDedekindReals.sig_forall_dec`, `ClassicalDedekindReals.sig_not_dec`, `FunctionalExtensionality.functional_extensionality_dep`
* `C98_around`: `ClassicalDedekindReals.sig_forall_dec`, `ClassicalDedekindReals.sig_not_dec`, `FunctionalExtensionality.functional_extensionality_dep`
* `C98_directions_example`: `ClassicalDedekindReals.sig_forall_dec`, `ClassicalDedekindReals.sig_not_dec`, `FunctionalExtensionality.functional_extensionality_dep`
* `C102_spacing`: `ClassicalDedekindReals.sig_forall_dec`, `ClassicalDedekindReals.sig_not_dec`, `FunctionalExtensionality.functional_extensionality_dep`
* `C102_spacing_zero`: `ClassicalDedekindReals.sig_forall_dec`, `ClassicalDedekindReals.sig_not_dec`, `FunctionalExtensionality.functional_extensionality_dep`
* `C102_spacing_order`: `ClassicalDedekindReals.sig_forall_dec`, `ClassicalDedekindReals.sig_not_dec`, `FunctionalExtensionality.functional_extensionality_dep`
* `C102_spacing_few`: `ClassicalDedekindReals.sig_forall_dec`, `ClassicalDedekindReals.sig_not_dec`, `FunctionalExtensionality.functional_extensionality_dep`
* `C103_value`: `ClassicalDedekindReals.sig_forall_dec`, `ClassicalDedekindReals.sig_not_dec`, `Classical_Prop.classic`, `FunctionalExtensionality.functional_extensionality_dep`
* `C103_few`: `ClassicalDedekindReals.sig_forall_dec`, `ClassicalDedekindReals.sig_not_dec`, `Classical_Prop.classic`, `FunctionalExtensionality.functional_extensionality_dep`
* `C103_range`: `ClassicalDedekindReals.sig_forall_dec`, `ClassicalDedekindReals.sig_not_dec`, `Classical_Prop.classic`, `FunctionalExtensionality.functional_extensionality_dep`
* `C103_extremes`: `ClassicalDedekindReals.sig_forall_dec`, `ClassicalDedekindReals.sig_not_dec`, `Classical_Prop.classic`, `FunctionalExtensionality.functional_extensionality_dep`
* `C111_c1dtlz1`: `ClassicalDedekindReals.sig_forall_dec`, `ClassicalDedekindReals.sig_not_dec`, `FunctionalExtensionality.functional_extensionality_dep`
* `C111_c1dtlz3`: `ClassicalDedekindReals.sig_forall_dec`, `ClassicalDedekindReals.sig_not_dec`, `Classical_Prop.classic`, `FunctionalExtensionality.functional_extensionality_dep`
* `C111_c1dtlz3_default`: `ClassicalDedekindReals.sig_forall_dec`, `FunctionalExtensionality.functional_extensionality_dep`
* `C111_c1dtlz3_small_radius`: `ClassicalDedekindReals.sig_forall_dec`, `ClassicalDedekindReals.sig_not_dec`, `FunctionalExtensionality.functional_extensionality_dep`
* `C111_dc2`: `ClassicalDedekindReals.sig_forall_dec`, `ClassicalDedekindReals.sig_not_dec`, `Classical_Prop.classic`, `FunctionalExtensionality.functional_extensionality_dep`
* `C111_c2dtlz2`: `ClassicalDedekindReals.sig_forall_dec`, `ClassicalDedekindReals.sig_not_dec`, `Classical_Prop.classic`, `FunctionalExtensionality.functional_extensionality_dep`
* `C111_c2dtlz2_nonempty`: `ClassicalDedekindReals.sig_forall_dec`, `ClassicalDedekindReals.sig_not_dec`, `FunctionalExtensionality.functional_extensionality_dep`
* `C111_c3dtlz4`: `ClassicalDedekindReals.sig_forall_dec`, `ClassicalDedekindReals.sig_not_dec`, `Classical_Prop.classic`, `FunctionalExtensionality.functional_extensionality_dep`
* `C111_c3dtlz4_general`: `ClassicalDedekindReals.sig_forall_dec`, `ClassicalDedekindReals.sig_not_dec`, `Classical_Prop.classic`, `FunctionalExtensionality.functional_extensionality_dep`
* `C111_c3dtlz4_refuted`: `ClassicalDedekindReals.sig_forall_dec`, `ClassicalDedekindReals.sig_not_dec`, `FunctionalExtensionality.functional_extensionality_dep`
* `C111_c3dtlz1_refuted`: `ClassicalDedekindReals.sig_forall_dec`, `ClassicalDedekindReals.sig_not_dec`, `FunctionalExtensionality.functional_extensionality_dep`
* `C111_dc1dtlz1`: `ClassicalDedekindReals.sig_forall_dec`, `ClassicalDedekindReals.sig_not_dec`, `FunctionalExtensionality.functional_extensionality_dep`
* `C111_dc1dtlz3`: `ClassicalDedekindReals.sig_forall_dec`, `ClassicalDedekindReals.sig_not_dec`, `Classical_Prop.classic`, `FunctionalExtensionality.functional_extensionality_dep`
* `C111_dc1_refuted`: `ClassicalDedekindReals.sig_forall_dec`, `ClassicalDedekindReals.sig_not_dec`, `Classical_Prop.classic`, `FunctionalExtensionality.functional_extensionality_dep`
* `C111_dc3`: `ClassicalDedekindReals.sig_forall_dec`, `ClassicalDedekindReals.sig_not_dec`, `FunctionalExtensionality.functional_extensionality_dep`
* `C113_df1`: `ClassicalDedekindReals.sig_forall_dec`, `ClassicalDedekindReals.sig_not_dec`, `Classical_Prop.classic`, `FunctionalExtensionality.functional_extensionality_dep`
* `C113_df3`: `ClassicalDedekindReals.sig_forall_dec`, `ClassicalDedekindReals.sig_not_dec`, `Classical_Prop.classic`, `FunctionalExtensionality.functional_extensionality_dep`
* `C113_df2`: `ClassicalDedekindReals.sig_forall_dec`, `ClassicalDedekindReals.sig_not_dec`, `Classical_Prop.classic`, `FunctionalExtensionality.functional_extensionality_dep`
* `C113_df5`: `ClassicalDedekindReals.sig_forall_dec`, `ClassicalDedekindReals.sig_not_dec`, `Classical_Prop.classic`, `FunctionalExtensionality.functional_extensionality_dep`
* `C113_df6`: `ClassicalDedekindReals.sig_forall_dec`, `ClassicalDedekindReals.sig_not_dec`, `Classical_Prop.classic`, `FunctionalExtensionality.functional_extensionality_dep`
* `C113_df8`: `ClassicalDedekindReals.sig_forall_dec`, `ClassicalDedekindReals.sig_not_dec`, `Classical_Prop.classic`, `FunctionalExtensionality.functional_extensionality_dep`
* `C113_df7`: `ClassicalDedekindReals.sig_forall_dec`, `ClassicalDedekindReals.sig_not_dec`, `FunctionalExtensionality.functional_extensionality_dep`
* `C113_df4`: `ClassicalDedekindReals.sig_forall_dec`, `ClassicalDedekindReals.sig_not_dec`, `Classical_Prop.classic`, `FunctionalExtensionality.functional_extensionality_dep`
* `C113_df9`: `ClassicalDedekindReals.sig_forall_dec`, `ClassicalDedekindReals.sig_not_dec`, `FunctionalExtensionality.functional_extensionality_dep`
* `C113_df10`: `ClassicalDedekindReals.sig_forall_dec`, `ClassicalDedekindReals.sig_not_dec`, `Classical_Prop.classic`, `FunctionalExtensionality.functional_extensionality_dep`
* `C113_df11`: `ClassicalDedekindReals.sig_forall_dec`, `ClassicalDedekindReals.sig_not_dec`, `Classical_Prop.classic`, `FunctionalExtensionality.functional_extensionality_dep`
* `C113_df13`: `ClassicalDedekindReals.sig_forall_dec`, `ClassicalDedekindReals.sig_not_dec`, `Classical_Prop.classic`, `FunctionalExtensionality.functional_extensionality_dep`
* `C113_df14`: `ClassicalDedekindReals.sig_forall_dec`, `ClassicalDedekindReals.sig_not_dec`, `Classical_Prop.classic`, `FunctionalExtensionality.functional_extensionality_dep`
* `C113_df12_batch`: `ClassicalDedekindReals.sig_forall_dec`, `ClassicalDedekindReals.sig_not_dec`, `Classical_Prop.classic`, `FunctionalExtensionality.functional_extensionality_dep`
* `C114_igd`: `ClassicalDedekindReals.sig_forall_dec`, `ClassicalDedekindReals.sig_not_dec`, `FunctionalExtensionality.functional_extensionality_dep`
* `C114_rescaled`: `ClassicalDedekindReals.sig_forall_dec`, `ClassicalDedekindReals.sig_not_dec`, `FunctionalExtensionality.functional_extensionality_dep`
* `C114_migd`: `ClassicalDedekindReals.sig_forall_dec`, `FunctionalExtensionality.functional_extensionality_dep`
* `C116_wfg3_reported`: `ClassicalDedekindReals.sig_forall_dec`, `ClassicalDedekindReals.sig_not_dec`, `Classical_Prop.classic`, `FunctionalExtensionality.functional_extensionality_dep`
* `C116_wfg_range`: `ClassicalDedekindReals.sig_forall_dec`, `ClassicalDedekindReals.sig_not_dec`, `Classical_Prop.classic`, `FunctionalExtensionality.functional_extensionality_dep`
* `C116_wfg_reported`: `ClassicalDedekindReals.sig_forall_dec`, `ClassicalDedekindReals.sig_not_dec`, `Classical_Prop.classic`, `FunctionalExtensionality.functional_extensionality_dep`
* `C116_wfg_front`: `ClassicalDedekindReals.sig_forall_dec`, `ClassicalDedekindReals.sig_not_dec`, `Classical_Prop.classic`, `FunctionalExtensionality.functional_extensionality_dep`
* `C116_wfg1_front`: `ClassicalDedekindReals.sig_forall_dec`, `ClassicalDedekindReals.sig_not_dec`, `Classical_Prop.classic`, `FunctionalExtensionality.functional_extensionality_dep`
* `C116_wfg9_reported_front`: `ClassicalDedekindReals.sig_forall_dec`, `ClassicalDedekindReals.sig_not_dec`, `Classical_Prop.classic`, `FunctionalExtensionality.functional_extensionality_dep`
* `C116_pareto_set`: `ClassicalDedekindReals.sig_forall_dec`, `ClassicalDedekindReals.sig_not_dec`, `Classical_Prop.classic`, `FunctionalExtensionality.functional_extensionality_dep`
* `C116_pareto_set_raises`: `ClassicalDedekindReals.sig_forall_dec`, `ClassicalDedekindReals.sig_not_dec`, `Classical_Prop.classic`, `FunctionalExtensionality.functional_extensionality_dep`
* `C116_front_rounds`: `ClassicalDedekindReals.sig_forall_dec`, `ClassicalDedekindReals.sig_not_dec`, `Classical_Prop.classic`, `FunctionalExtensionality.functional_extensionality_dep`
* `C116_wfg2_refuted`: `ClassicalDedekindReals.sig_forall_dec`, `ClassicalDedekindReals.sig_not_dec`, `Classical_Prop.classic`, `FunctionalExtensionality.functional_extensionality_dep`
* `C118_simplex`: `ClassicalDedekindReals.sig_forall_dec`, `ClassicalDedekindReals.sig_not_dec`, `Classical_Prop.classic`, `FunctionalExtensionality.functional_extensionality_dep`
* `C118_gradient`: `ClassicalDedekindReals.sig_forall_dec`, `ClassicalDedekindReals.sig_not_dec`, `Classical_Prop.classic`, `FunctionalExtensionality.functional_extensionality_dep`
* `C118_best`: `ClassicalDedekindReals.sig_forall_dec`, `ClassicalDedekindReals.sig_not_dec`, `Classical_Prop.classic`, `FunctionalExtensionality.functional_extensionality_dep`
* `C118_energy_refuted`: `ClassicalDedekindReals.sig_forall_dec`, `ClassicalDedekindReals.sig_not_dec`, `Classical_Prop.classic`, `FunctionalExtensionality.functional_extensionality_dep`
* `C118_mean`: `ClassicalDedekindReals.sig_forall_dec`, `ClassicalDedekindReals.sig_not_dec`, `Classical_Prop.classic`, `FunctionalExtensionality.functional_extensionality_dep`
* `C120_limit`: `ClassicalDedekindReals.sig_forall_dec`, `ClassicalDedekindReals.sig_not_dec`, `Classical_Prop.classic`, `FunctionalExtensionality.functional_extensionality_dep`
* `C120_abs_refuted`: `ClassicalDedekindReals.sig_forall_dec`, `ClassicalDedekindReals.sig_not_dec`, `Classical_Prop.classic`, `FunctionalExtensionality.functional_extensionality_dep`
* `C120_quadratic`: `ClassicalDedekindReals.sig_forall_dec`, `ClassicalDedekindReals.sig_not_dec`, `Classical_Prop.classic`, `FunctionalExtensionality.functional_extensionality_dep`
* `C120_polynomial`: `ClassicalDedekindReals.sig_forall_dec`, `ClassicalDedekindReals.sig_not_dec`, `Classical_Prop.classic`, `FunctionalExtensionality.functional_extensionality_dep`
* `C120_keys`: `ClassicalDedekindReals.sig_forall_dec`, `ClassicalDedekindReals.sig_not_dec`, `Classical_Prop.classic`, `FunctionalExtensionality.functional_extensionality_dep`
* `C120_entries`: `ClassicalDedekindReals.sig_forall_dec`, `ClassicalDedekindReals.sig_not_dec`, `Classical_Prop.classic`, `FunctionalExtensionality.functional_extensionality_dep`
* `C121_terminates`: `ClassicalDedekindReals.sig_forall_dec`, `ClassicalDedekindReals.sig_not_dec`, `FunctionalExtensionality.functional_extensionality_dep`
* `C121_infeasible`: `ClassicalDedekindReals.sig_forall_dec`, `ClassicalDedekindReals.sig_not_dec`, `FunctionalExtensionality.functional_extensionality_dep`
* `C121_raises`: `ClassicalDedekindReals.sig_forall_dec`, `ClassicalDedekindReals.sig_not_dec`, `FunctionalExtensionality.functional_extensionality_dep`
* `C121_range`: `ClassicalDedekindReals.sig_forall_dec`, `ClassicalDedekindReals.sig_not_dec`, `FunctionalExtensionality.functional_extensionality_dep`
* `C121_zero`: `ClassicalDedekindReals.sig_forall_dec`, `ClassicalDedekindReals.sig_not_dec`, `FunctionalExtensionality.functional_extensionality_dep`
* `C121_critical`: `ClassicalDedekindReals.sig_forall_dec`, `ClassicalDedekindReals.sig_not_dec`, `FunctionalExtensionality.functional_extensionality_dep`
* `C121_ideal`: `ClassicalDedekindReals.sig_forall_dec`, `ClassicalDedekindReals.sig_not_dec`, `FunctionalExtensionality.functional_extensionality_dep`
* `C121_solver`: `ClassicalDedekindReals.sig_forall_dec`, `FunctionalExtensionality.functional_extensionality_dep`
* `C121_feasible_refuted`: `ClassicalDedekindReals.sig_forall_dec`, `ClassicalDedekindReals.sig_not_dec`, `FunctionalExtensionality.functional_extensionality_dep`
* `C122_g1`: `ClassicalDedekindReals.sig_forall_dec`, `FunctionalExtensionality.functional_extensionality_dep`
* `C122_g3`: `ClassicalDedekindReals.sig_forall_dec`, `ClassicalDedekindReals.sig_not_dec`, `Classical_Prop.classic`, `FunctionalExtensionality.functional_extensionality_dep`
* `C122_g3_refuted`: `ClassicalDedekindReals.sig_forall_dec`, `ClassicalDedekindReals.sig_not_dec`, `Classical_Prop.classic`, `FunctionalExtensionality.functional_extensionality_dep`
* `C122_g4_refuted`: `ClassicalDedekindReals.sig_forall_dec`, `FunctionalExtensionality.functional_extensionality_dep`
* `C122_g6`: `ClassicalDedekindReals.sig_forall_dec`, `ClassicalDedekindReals.sig_not_dec`, `FunctionalExtensionality.functional_extensionality_dep`
* `C122_g7`: `ClassicalDedekindReals.sig_forall_dec`, `FunctionalExtensionality.functional_extensionality_dep`
* `C122_g11`: `ClassicalDedekindReals.sig_forall_dec`, `ClassicalDedekindReals.sig_not_dec`, `FunctionalExtensionality.functional_extensionality_dep`
* `C122_g12`: `ClassicalDedekindReals.sig_forall_dec`, `FunctionalExtensionality.functional_extensionality_dep`
* `C122_g24_refuted`: `ClassicalDedekindReals.sig_forall_dec`, `FunctionalExtensionality.functional_extensionality_dep`
* `C122_g24`: `ClassicalDedekindReals.sig_forall_dec`, `FunctionalExtensionality.functional_extensionality_dep`

`vcheck` additionally lists symbols of `Coq.Reals.Rdefinitions` (the abstract constants of the module type that seals the real
numbers, including `Rlt_def` etc.) and `Coq.ssr.ssrunder.Under_rel.*`: these belong to standard library modules that are loaded, not
to the assumptions of a theorem.

Closed theorems: `C01_relation_objectives`, `C01_relation_constrained`, `C01_relation_antisymmetric`, `C01_dominance_transitive`, `C01_dominance_irreflexive`, `C01_constr_dominance_transitive`, `C01_constr_dominance_irreflexive`, `C01_relation_transitive`, `C02_matrix_entry`, `C02_matrix_entry_cross`, `C02_matrix_antisymmetric`, `C02_matrix_diagonal`, `C02_loop_matrix_entry`, `C03_peeling_unique`, `C03_fast_nds`, `C03_fast_nds_any_dominator`, `C03_std_fast_nds`, `C04_ens_nds`, `C04_ens_agrees_with_fast`, `C05_degree_matrix`, `C05_dda_ns`, `C05_dda_ens`, `C06_tree_characterisation`, `C06_tree_nds_distinct`, `C06_tree_duplicates_refuted`, `C07_biobj_characterisation`, `C07_biobj_distinct`, `C07_biobj_ties_refuted`, `C08_find_non_dominated_std`, `C08_std_increasing`, `C08_find_non_dominated_cross`, `C08_increasing`, `C08_find_non_dominated_default`, `C09_default_full`, `C09_default_n_fronts`, `C09_default_n_stop`, `C09_dominator_n_stop`, `C09_only_first`, `C09_dominator_n_fronts_refuted`, `C09_dominator_n_fronts_ignored`, `C09_rank_from_fronts`, `C10_survival_do`, `C10_infeasible_sorted`, `C10_return_indices`, `C11_nsga2_generation`, `C11_nsga2_run`, `C11_rank_and_crowding`, `C11_rank_exists_unique`, `C11_best_front_survives`, `C11_default_sorter`, `C11_randomized_argsort`, `C11_nsga2_survival`, `C12_constr_rank_and_crowding`, `C13_refuted`, `C13_slotwise`, `C13_involution_partial`, `C14_replacement`, `C14_history`, `C14_better_strict_order`, `C14_is_better`, `C15_hierarchical_sort`, `C15_no_constraints`, `C15_binary64_refuted`, `C16_violation`, `C16_default_config`, `C16_feasible`, `C16_population`, `C17_cache_off`, `C17_cached_value`, `C17_current_until_rewritten_partial`, `C17_stale_refuted`, `C18_eval`, `C18_values`, `C18_idempotent`, `C18_counter_history`, `C19_budget`, `C19_novel`, `C19_novel_elementwise`, `C19_novel_hash`, `C19_n_matings`, `C19_one_round`, `C20_default`, `C20_elementwise`, `C20_hash`, `C20_pairwise_apart`, `C20_one_per_class`, `C20_indices`, `C20_hash_default_refuted`, `C21_ox`, `C21_operator`, `C22_erx`, `C23_inversion`, `C24_uniform`, `C24_half_uniform`, `C24_half_uniform_distance`, `C24_point`, `C24_exponential`, `C24_binomial`, `C25_do`, `C25_evenly`, `C25_no_crossover`, `C26_clamp`, `C26_sbx`, `C26_pm`, `C26_inverse_penalty`, `C26_repairs`, `C26_periodic_shift`, `C26_degenerate_refuted`, `C26_degenerate_exact`, `C26_degenerate_assert`, `C26_gauss`, `C26_dex`, `C26_dex_unbounded`, `C27_float`, `C27_float_bad_bounds`, `C27_float_overflow_refuted`, `C27_binary`, `C27_integer`, `C27_permutation`, `C27_lhs`, `C27_lhs_criterion`, `C27_lhs_rounding_refuted`, `C28_rounding`, `C28_integers_unchanged`, `C28_nearest`, `C29_nsga2_rank`, `C29_nsga2_dom`, `C29_nsga3`, `C29_unsga3`, `C29_ga`, `C29_clearing`, `C29_sms`, `C29_spea2`, `C29_ctaea`, `C29_age`, `C29_feasible_wins`, `C29_fair`, `C29_fair_exact`, `C29_no_self_tournament`, `C29_self_tournament_refuted`, `C29_shape`, `C29_random_selection`, `C30_rand`, `C30_best`, `C30_current_to_best`, `C30_current_to_rand`, `C30_ranked`, `C30_stops`, `C30_never_stops`, `C31_fill_refuted`, `C31_fill_partial`, `C32_quicksort`, `C32_quicksort_permutation`, `C32_randomized_argsort`, `C33_permutation`, `C33_pr_zero`, `C33_feasible`, `C33_pr_one`, `C34_any_termination`, `C34_generations`, `C34_generations_total`, `C34_evaluations`, `C34_forced`, `C34_callback_one_more`, `C35_any`, `C35_all`, `C35_combined_succeeds`, `C35_forced`, `C35_progress_nonneg`, `C36_window`, `C36_window_unbounded`, `C36_robust_exact`, `C36_robust_full_window`, `C36_robust_refuted`, `C37_fmin_exact`, `C37_fmin_partial`, `C37_infeasible_continues`, `C37_fmin_refuted`, `C38_ask_tell`, `C38_invariant`, `C38_tagged`, `C38_tell_returns`, `C38_result_archive_refuted`, `C39_success`, `C39_report`, `C39_default_optimum`, `C39_values_refuted`, `C40_multi`, `C40_single`, `C40_infeasible`, `C40_empty`, `C41_archive`, `C41_complete`, `C41_no_truncation_needed`, `C41_noise_refuted`, `C42_elitism`, `C42_reported_optimum`, `C43_merge`, `C43_merge_assoc`, `C43_set_get`, `C43_set_mismatch`, `C43_new`, `C43_slice_aliasing`, `C44_round_trip`, `C44_flat_round_trip`, `C44_refuted`, `C45_values`, `C45_succeeds`, `C45_refuted`, `C45_assign_partial`, `C46_das_dennis`, `C46_zero`, `C46_n_points`, `C46_factory`, `C46_incremental`, `C46_incremental_zero_refuted`, `C47_shapes`, `C47_auto`, `C47_init_type_refuted`, `C47_values`, `C47_monotone`, `C47_strict`, `C47_pbi_refuted`, `C48_first_result`, `C48_flags`, `C48_bypass_refuted`, `C48_values`, `C49_roulette`, `C49_minimise`, `C49_clearing`, `C50_value`, `C50_extremes`, `C50_order`, `C50_ties_refuted`, `C50_duplicates`, `C51_decorator`, `C51_sampling`, `C51_crossover`, `C51_mutation`, `C51_selection`, `C51_compose`, `C51_minimize`, `C51_gauss_refuted`, `C51_dex_refuted`, `C51_quicksort_refuted`, `C51_nsga3_refuted`, `C51_constr_refuted`, `C51_archive_refuted`, `C51_repair_inside`, `C51_nsga3_distinct`, `C51_constr_unsplit`, `C52_runner`, `C52_elementwise`, `C52_vectorized`, `C52_columns`, `C52_tuple`, `C52_misfit_refuted`, `C53_delta`, `C53_reference`, `C53_frozen`, `C54_get_params`, `C55_sum`, `C55_kraemer`, `C56_distinct_refuted`, `C56_first_partial`, `C56_steps_partial`, `C57_lattice`, `C57_n_points`, `C58_project`, `C59_niching`, `C59_too_many`, `C59_niche_count`, `C59_survival`, `C59_ranks`, `C59_nsga3_survival`, `C60_optimum_partial`, `C60_refuted`, `C61_history`, `C61_nadir`, `C61_intercepts`, `C61_extreme`, `C62_accepts`, `C62_inverse`, `C62_range`, `C62_estimated`, `C62_denormalize`, `C62_degenerate_refuted`, `C62_integer_refuted`, `C62_integer_collapse`, `C62_simple`, `C62_ideal`, `C63_refuted`, `C63_actual`, `C64_tiles`, `C64_points`, `C64_shape`, `C64_selection`, `C64_growth`, `C64_largest_refuted`, `C64_truncation_refuted`, `C64_fixed_refuted`, `C66_neighbours`, `C66_replace`, `C66_run`, `C66_step`, `C66_best_so_far`, `C66_best_so_far_refuted`, `C66_parents`, `C66_parallel_actual`, `C66_parallel_one_child`, `C66_parallel_refuted`, `C66_parallel`, `C69_max_alpha`, `C69_max_alpha_exact`, `C69_max_alpha_refuted`, `C69_step`, `C69_best`, `C69_worst_or_shrink`, `C69_run`, `C69_params`, `C69_initial_simplex`, `C69_scale_ignored`, `C69_best_refuted`, `C69_collapse`, `C70_axis`, `C70_exploration`, `C70_iteration`, `C70_direction`, `C70_run`, `C70_delta`, `C70_seed_refuted`, `C71_values`, `C71_feasible`, `C71_front`, `C71_evaluate_refuted`, `C71_append_refuted`, `C72_values`, `C72_exact`, `C72_multi_refuted`, `C73_bounds`, `C73_remove_refuted`, `C73_default_names`, `C73_violation`, `C74_relaxed`, `C74_thresholds`, `C74_decreasing`, `C74_n_eval_refuted`, `C75_values`, `C75_single_refuted`, `C75_default_refuted`, `C76_functional`, `C76_functional_single`, `C76_static`, `C76_elementwise_refuted`, `C77_replacement`, `C77_best`, `C77_runs`, `C77_many_offspring_refuted`, `C77_steady_state_refuted`, `C77_trial_box`, `C77_weights`, `C77_mask`, `C78_best`, `C78_personal`, `C78_personal_best_refuted`, `C78_velocity`, `C78_move_box`, `C78_vmax`, `C78_unbounded_refuted`, `C78_initial_velocity`, `C78_membership`, `C78_strategy`, `C78_strategy_by_factor`, `C78_coefficients`, `C78_sum_refuted`, `C78_no_rescale`, `C78_factor_refuted`, `C79_sizes`, `C79_default_rule`, `C79_repair`, `C79_offspring`, `C79_isres_offspring`, `C79_isres_alpha_refuted`, `C79_sigma_max`, `C79_unbounded_refuted`, `C79_population`, `C79_picks`, `C79_picks_fitness`, `C79_reported_optimum`, `C79_comma_refuted`, `C79_sres_refuted`, `C79_sres_seed_refuted`, `C79_sres_seed_unconstrained`, `C80_selection`, `C80_survival`, `C80_removal`, `C80_one_offspring`, `C80_never_decreases`, `C80_truncation`, `C80_many_offspring_refuted`, `C81_raw`, `C81_fitness`, `C81_neighbour`, `C81_selection`, `C81_closest`, `C81_survival`, `C81_boundary`, `C81_boundary_refuted`, `C82_budget`, `C83_ca`, `C83_truncation`, `C83_balanced`, `C83_niches`, `C83_opt`, `C83_da`, `C83_da_terminates`, `C83_step`, `C83_opt_feasible_refuted`, `C83_opt_nonempty_refuted`, `C83_da_distinct_refuted`, `C83_init_refuted`, `C83_mating`, `C83_mating_range`, `C84_mating`, `C84_n_matings`, `C84_default`, `C84_sampling`, `C84_choice_refuted`, `C84_order_refuted`, `C84_values`, `C84_inherit`, `C84_copies`, `C84_duplicate`, `C84_duplicate_refuted`, `C85_rosenbrock_refuted`, `C89_flowshop_bounds_refuted`, `C89_knapsack_evaluates`, `C89_mo_knapsack_refuted`, `C90_compromise_refuted`, `C91_duels`, `C91_generation`, `C91_run`, `C91_trial`, `C91_trial_mask`, `C91_target`, `C91_forgets_refuted`, `C92_elites`, `C92_history`, `C92_multi`, `C92_dedup`, `C92_dedup_refuted`, `C92_multi_constraints_refuted`, `C92_selection`, `C92_no_elite`, `C92_g3pcx`, `C92_is_better`, `C92_loops`, `C93_tournament`, `C93_optimum`, `C93_complete`, `C93_initial_cut`, `C93_duplicates_refuted`, `C93_feasible_refuted`, `C93_forgets_refuted`, `C93_pbest`, `C93_leader`, `C93_movement`, `C93_winner`, `C93_elites`, `C94_optimum`, `C94_nrbo`, `C94_local_best`, `C94_star`, `C94_ring`, `C94_ring_not_global_refuted`, `C94_star_start_refuted`, `C94_movement`, `C94_first_generation_refuted`, `C94_nrbo_box`, `C94_delta`, `C94_delta_refuted`, `C95_survival`, `C95_best_front`, `C95_constraints`, `C95_optimum`, `C95_corners`, `C95_last_front_refuted`, `C95_survival_example`, `C95_two_smallest`, `C95_greedy`, `C95_scores`, `C95_corner_solutions`, `C95_exponent`, `C95_scores_example`, `C95_crowding`, `C95_crowding_example`, `C96_generation`, `C96_run`, `C96_forgets_refuted`, `C96_run_example`, `C97_ranking`, `C97_clearing`, `C97_survival`, `C97_values`, `C97_constraints`, `C97_optimum`, `C97_closest`, `C97_example`, `C97_duplicates_refuted`, `C97_ref_points_grow`, `C98_survival`, `C98_constraints`, `C98_survival_opt`, `C98_report`, `C98_stale_refuted`, `C98_example`, `C98_points`, `C98_nadir`, `C98_nadir_refuted`, `C99_no_false_alarm`, `C99_masked`, `C99_detects`, `C99_samples`, `C99_generation`, `C99_static`, `C99_missed_refuted`, `C99_example`, `C99_masked_example`, `C99_version_A_reproducible`, `C99_version_B_reproducible_refuted`, `C100_selection`, `C100_mnn`, `C100_pcd`, `C100_constant`, `C100_extremes`, `C100_wrapper`, `C100_example`, `C101_single`, `C101_multi`, `C101_not_early`, `C101_stops`, `C101_until_feasible`, `C102_rmetric`, `C102_none`, `C102_front`, `C104_loose_matrix`, `C104_loose_order`, `C104_fronts`, `C104_dominated_optimum_refuted`, `C104_objective_crowding`, `C104_variable_crowding`, `C104_combined_crowding`, `C104_one_space`, `C104_average_refuted`, `C104_survival`, `C104_no_crowding_raises`, `C104_best_survives`, `C104_best_lost_refuted`, `C104_constrained`, `C104_pairs`, `C104_pairs_distinct`, `C104_single_refuted`, `C104_normalised`, `C104_optimum`, `C105_deepcopy`, `C105_deepcopy_succeeds`, `C105_minimize_changes_only`, `C105_algorithm_and_termination_untouched`, `C105_setup`, `C105_set_up_before`, `C105_meta`, `C105_history`, `C105_snapshot_restores`, `C105_snapshot_fails`, `C105_options_copied_refuted`, `C105_no_copy`, `C106_callback_calls`, `C106_collection_only_updates`, `C106_recorder`, `C106_recorder_total`, `C106_recorder_reused`, `C106_single_objective_entry`, `C106_initialization`, `C106_initial_population`, `C107_matrix`, `C107_fronts`, `C107_fronts_sorted`, `C107_no_preference`, `C107_order_refuted`, `C107_hang_refuted`, `C108_pairwise_dense`, `C108_pairwise_consistent`, `C108_pairwise_total`, `C108_absolute`, `C108_absolute_refuted`, `C108_refit_ends`, `C108_v2`, `C108_remove`, `C108_second_best_refuted`, `C108_advance`, `C108_no_preference_refuted`, `C109_linear`, `C109_poly`, `C109_poly_monotone_refuted`, `C109_ties_refuted`, `C109_comparator`, `C110_hv_monotone`, `C110_hv_strict`, `C110_hv_same`, `C110_hv_union`, `C110_reference`, `C110_init`, `C110_value`, `C110_compliant`, `C110_compliant_strict`, `C110_default_reference_refuted`, `C110_integer_refuted`, `C110_epsilon`, `C110_epsilon_covers`, `C110_epsilon_mult`, `C110_epsilon_mult_refuted`, `C110_approximate`, `C110_approximate_laws`, `C112_archive`, `C112_condense`, `C112_greedy`, `C112_no_clusters`, `C112_labels`, `C112_labelled_once`, `C112_random_strategy`, `C112_population`, `C112_small_population`, `C112_generation`, `C112_runs`, `C112_shared_default`, `C112_isolated`, `C113_clock`, `C113_simulation`, `C113_front_cached`, `C113_front_current`, `C113_set_time_refuted`, `C114_window`, `C114_deltas`, `C114_hv`, `C115_table`, `C115_printable`, `C115_int`, `C115_float`, `C115_output`, `C115_output_again`, `C115_output_given`, `C115_output_quiet`, `C115_progress`, `C115_float_cut`, `C115_columns`, `C115_text`, `C117_survivors`, `C117_first`, `C117_rounds`, `C117_apart`, `C117_covered`, `C117_opt`, `C117_niche`, `C117_run`, `C117_zero_raises`, `C117_niche_refuted`, `C117_ranks`, `C119_recorded`, `C119_credit`, `C119_credit_two`, `C119_credit_all`, `C119_enough`, `C119_none`, `C119_seed_refuted`, `C119_random`, `C119_filled`, `C119_age`, `C119_evolved`, `C119_random_run`, `C119_run`, `C119_kept`, `C123_best`, `C123_monotone`.
