{"id": "C01", "title": "Dominance relation of two solutions", "statement": "Comparing two objective vectors reports 1 exactly when the first Pareto-dominates the second (no worse in any objective, better in at least one), -1 exactly in the mirrored case, and 0 otherwise; when both constraint violations are given, the smaller violation wins outright and the objectives decide only on equal violations. Swapping the arguments negates the answer, and domination is transitive and irreflexive.", "quantifier": "all pairs/triples of equally long objective vectors of any length (floats incl. infinities, NaN where stated) and all constraint violations", "why_tests_cant": "a unit test samples a handful of vectors; antisymmetry/transitivity quantify over all vectors and lengths", "anchors": ["pymoo/util/dominator.py: Dominator.get_relation"]}
{"id": "C02", "title": "Domination matrix", "statement": "The vectorised domination matrix of a set of points has at (i,j) exactly the pairwise relation of point i to point j, hence is antisymmetric with a zero diagonal; the loop-based matrix with constraint violations has the constrained pairwise relation at every entry.", "quantifier": "all point sets of any size and any number of objectives, all tolerances epsilon where stated", "why_tests_cant": "every matrix size and every pair", "anchors": ["pymoo/util/dominator.py: Dominator.calc_domination_matrix, calc_domination_matrix_loop"]}
{"id": "C03", "title": "Fast non-dominated sort is the Pareto peeling", "statement": "For every point set the returned fronts are disjoint, together contain every index exactly once, the first front is exactly the set of non-dominated points, and each further front is exactly the set of points non-dominated once all earlier fronts are removed; the sort always terminates and no front is empty.", "quantifier": "all objective matrices without NaN (any number of points and objectives), and more generally any domination matrix coming from a transitive irreflexive relation", "why_tests_cant": "tests compare a few random matrices; the partition and termination must hold for all", "anchors": ["pymoo/util/nds/fast_non_dominated_sort.py: fast_non_dominated_sort", "pymoo/functions/standard/non_dominated_sorting.py: fast_non_dominated_sort"]}
{"id": "C04", "title": "Efficient non-dominated sort agrees with the Pareto peeling", "statement": "Efficient non-dominated sorting, with either the sequential or the binary search strategy, returns the same fronts (as sets) as the Pareto peeling, for every input including duplicates; the searches always terminate with a front index between 0 and the number of fronts found so far.", "quantifier": "all objective matrices without NaN, both strategies", "why_tests_cant": "the binary search has corner cases for every number of fronts and position", "anchors": ["pymoo/functions/standard/non_dominated_sorting.py: efficient_non_dominated_sort, sequential_search, binary_search"]}
{"id": "C05", "title": "Dominance-degree sorts agree with the Pareto peeling", "statement": "The dominance-degree matrix counts for each pair the objectives in which the row is no worse; both dominance-degree sorts (efficient and fast) return the Pareto peeling for every input including duplicates.", "quantifier": "all objective matrices without NaN; every sorting permutation the argsort may return on ties", "why_tests_cant": "ties make argsort order implementation defined; must hold for each", "anchors": ["pymoo/functions/standard/non_dominated_sorting.py: construct_comp_matrix, construct_domination_matrix, dda_ns, dda_ens"]}
{"id": "C06", "title": "Tree-based sort agrees with the Pareto peeling", "statement": "Tree-based non-dominated sorting returns the same fronts as the Pareto peeling whenever no objective vector occurs twice, whatever objective sequence is used. In general it returns the peeling of the relation 'earlier in the lexicographic order and no worse in all objectives but the first', so that copies of one vector are spread over different fronts (a defect: with repeated vectors it does not agree with the Pareto peeling).", "quantifier": "all objective matrices without NaN, all orders of comparing the objectives", "why_tests_cant": "must hold for every matrix; the failing class (duplicates) is easily missed by random floats", "anchors": ["pymoo/functions/standard/non_dominated_sorting.py: tree_based_non_dominated_sort, check_tree, update_tree"]}
{"id": "C07", "title": "Specialised bi-objective sort agrees with the Pareto peeling", "statement": "The O(N log N) bi-objective sort returns the same fronts as the Pareto peeling whenever the first objective values are pairwise different. In general it returns the peeling of the relation 'earlier in the sort by the first objective and no worse in the second', which on ties is not the Pareto peeling.", "quantifier": "all bi-objective matrices without NaN and every argsort of the first objective", "why_tests_cant": "ties never occur in random floats", "anchors": ["pymoo/functions/standard/non_dominated_sorting.py: _fast_biobjective_nondominated_sort"]}
{"id": "C08", "title": "Finding the non-dominated points", "statement": "find_non_dominated returns, in increasing order, exactly the indices of the points that no other point dominates; with a second set it returns exactly the points not dominated by any point of that set.", "quantifier": "all point sets of any size", "why_tests_cant": "all sizes and ties", "anchors": ["pymoo/functions/standard/non_dominated_sorting.py: find_non_dominated", "pymoo/util/nds/non_dominated_sorting.py: find_non_dominated"]}
{"id": "C09", "title": "Early stopping and ranks of the non-dominated sorting object", "statement": "Asking the sorter to stop after n ranked points, after k fronts or after the first front returns a prefix of the full list of fronts: the shortest prefix holding at least n points, the first k fronts, the non-dominated set. The returned rank of a point is the number of its front, and the largest integer if it was not ranked. Exception: with a custom dominator the number of fronts k is ignored.", "quantifier": "all inputs, all stopping parameters, both code paths (with and without a custom dominator)", "why_tests_cant": "combination of options with every input", "anchors": ["pymoo/util/nds/non_dominated_sorting.py: NonDominatedSorting.do, rank_from_fronts"]}
{"id": "C10", "title": "Feasible-first survival", "statement": "Survival selection on a constrained problem keeps min(n_survive, |pop|) distinct members of the population; an infeasible individual survives only if every feasible individual survives, and the infeasible survivors are ones with the smallest constraint violations.", "quantifier": "all populations, all survival sizes, every inner survival that returns the requested number of members, every tie order of argsort", "why_tests_cant": "all populations and tie orders", "anchors": ["pymoo/core/survival.py: Survival.do, split_by_feasibility"]}
{"id": "C11", "title": "Rank-and-crowding survival is elitist", "statement": "NSGA-II survival keeps exactly min(n_survive,|pop|) distinct individuals; whoever survives has a Pareto rank no worse than anybody discarded, and inside the split front every survivor has a crowding value no smaller than every discarded one; every survivor's stored rank is its Pareto rank. In particular, if the non-dominated front fits it survives completely. Run over any number of generations (NSGA-II: merge, then this survival) the population keeps its size, the least violation ever seen is in it, a feasible solution beaten by nobody in its generation is lost only if the new population consists of such solutions, and as long as they fit every feasible solution ever seen is in the population or beaten by a member.", "quantifier": "all populations, survival sizes, crowding metrics, random tie-breaks", "why_tests_cant": "randomised tie-breaking and every split position", "anchors": ["pymoo/operators/survival/rank_and_crowding/classes.py: RankAndCrowding._do"]}
{"id": "C12", "title": "Constrained rank-and-crowding survival", "statement": "The GDE3 survival keeps exactly min(n_survive,|pop|) distinct individuals, prefers all feasible over any infeasible one, and among the infeasible ones keeps whole constraint-violation fronts first.", "quantifier": "all populations, survival sizes, random tie-breaks", "why_tests_cant": "all split positions", "anchors": ["pymoo/operators/survival/rank_and_crowding/classes.py: ConstrRankAndCrowding._do"]}
{"id": "C13", "title": "Replacement survival adaptor", "statement": "Turning a survival into a one-to-one replacement replaces a parent by its offspring exactly when the offspring is ranked better by the wrapped survival.", "quantifier": "all survival orders (false: see refutation)", "why_tests_cant": "only visible when the survival order is not an involution", "anchors": ["pymoo/core/survival.py: ToReplacement._do"]}
{"id": "C14", "title": "One-to-one improvement replacement never worsens", "statement": "Replacing by improvement replaces a parent only if the offspring is strictly better (feasible beats infeasible, less violation beats more, smaller objective beats larger) and not a duplicate; every other slot is untouched; so slot-wise quality never worsens over any sequence of generations.", "quantifier": "all populations, all offspring, all generation sequences", "why_tests_cant": "invariant over all histories", "anchors": ["pymoo/core/replacement.py: is_better, ReplacementSurvival.do, ImprovementReplacement._do"]}
{"id": "C15", "title": "Parameter-less constraint handling", "statement": "Sorting by the parameter-less penalty puts every feasible solution before every infeasible one, feasible ones by objective, infeasible ones by violation.", "quantifier": "all objective/violation vectors (exact arithmetic; in binary64 the addition can absorb the violation: see refutation)", "why_tests_cant": "absorption needs extreme magnitudes", "anchors": ["pymoo/core/replacement.py: parameter_less, hierarchical_sort"]}
{"id": "C16", "title": "Constraint violation is a violation measure", "statement": "The constraint violation is never negative, is zero exactly when every inequality value is at most its tolerance and every equality value is within its tolerance, and an individual is reported feasible exactly when the violation is at most cv_eps; worsening a constraint never decreases it.", "quantifier": "all constraint vectors of any length and all non-negative tolerances (exact arithmetic)", "why_tests_cant": "all values/lengths", "anchors": ["pymoo/core/individual.py: calc_cv, constr_to_cv, Individual.CV, Individual.FEAS"]}
{"id": "C17", "title": "Constraint violation reflects the current constraint values", "statement": "Reading the constraint violation of an individual after its constraint values have been set (again) reports the violation of the current values.", "quantifier": "all sequences of set/get operations on an individual (false with the default cache once CV was read: see refutation; true before the first read or with cache off)", "why_tests_cant": "depends on the history of reads and writes", "anchors": ["pymoo/core/individual.py: Individual.CV, Individual.set, Individual.reset"]}
{"id": "C18", "title": "Evaluation bookkeeping", "statement": "Evaluating a population calls the problem exactly on the individuals that lack at least one of the requested values (all if skipping is off), increases the evaluation counter by exactly their number (unless counting is off), sets their values to what the problem returns for their variables, marks them evaluated, and leaves every other individual untouched; a second evaluation is a no-op. Over any sequence of evaluations the counter equals the number of problem rows evaluated.", "quantifier": "all populations, all histories of evaluation calls, all problems", "why_tests_cant": "history property", "anchors": ["pymoo/core/evaluator.py: Evaluator.eval, Evaluator._eval"]}
{"id": "C19", "title": "Infill produces new, distinct candidates within budget", "statement": "Generating offspring returns at most the requested number, stops after at most the configured number of mating rounds, never returns two candidates that are duplicates of one another or of the current population (w.r.t. the duplicate criterion), and returns exactly the requested number unless the round limit was hit.", "quantifier": "all populations, all mating outcomes (random), all request sizes", "why_tests_cant": "random mating, retry loop", "anchors": ["pymoo/core/infill.py: InfillCriterion.do", "pymoo/core/mating.py: Mating._do"]}
{"id": "C20", "title": "Duplicate elimination", "statement": "Eliminating duplicates returns a subsequence in the original order in which no two members (and no member and reference point) are within the tolerance, every removed individual is within tolerance of another one or of a reference point, and nothing else changes; the reported index lists partition the input. The default variant keeps the first of two equal members, the element-wise variant the last; with an equivalence as the criterion every class keeps exactly one representative.", "quantifier": "all populations, reference sets, distance functions (symmetric)", "why_tests_cant": "all sizes/orders", "anchors": ["pymoo/core/duplicate.py: DuplicateElimination.do, DefaultDuplicateElimination, ElementwiseDuplicateElimination, HashDuplicateElimination"]}
{"id": "C21", "title": "Order crossover yields permutations", "statement": "Order crossover of two permutations is a permutation with the donor's segment in its place and the remaining values in the receiver's order (cyclically from the segment start when shifting).", "quantifier": "all pairs of permutations of any length, all segments, both shift modes", "why_tests_cant": "all lengths and segments", "anchors": ["pymoo/operators/crossover/ox.py: ox, OrderCrossover._do"]}
{"id": "C22", "title": "Edge recombination crossover yields permutations", "statement": "Edge recombination of two permutations of the same values never fails and yields a permutation of these values, whatever random choices are made; each step goes to a neighbour in one of the parents whenever one is left.", "quantifier": "all pairs of permutations, all random choices", "why_tests_cant": "all random schedules", "anchors": ["pymoo/operators/crossover/erx.py: erx, calc_adjency_matrix, remove_from_adj_list"]}
{"id": "C23", "title": "Inversion mutation yields permutations", "statement": "Inversion mutation reverses one segment and nothing else: the result is a permutation of the input and applying it twice restores the input.", "quantifier": "all vectors, all segments", "why_tests_cant": "all lengths and segments", "anchors": ["pymoo/operators/mutation/inversion.py: inversion_mutation"]}
{"id": "C24", "title": "Mask based crossovers conserve genes", "statement": "Uniform, half-uniform, point, exponential and binomial crossover produce two children that at every position carry the two parents' genes, swapped exactly where the mask is set; half-uniform swaps exactly half (rounded up) of the differing positions; k-point crossover swaps alternating segments.", "quantifier": "all parents of any length, all masks/random choices", "why_tests_cant": "all random masks", "anchors": ["pymoo/util/misc.py: crossover_mask", "pymoo/operators/crossover/{ux,hux,pntx,expx,binx}.py"]}
{"id": "C25", "title": "Crossover operator contract", "statement": "Applying a crossover to m matings yields n_offsprings*m offspring; a mating for which the crossover is not executed yields exact copies of its parents (each parent at most once if fewer offspring than parents, and evenly often if more).", "quantifier": "all numbers of parents/offspring/matings and all random draws", "why_tests_cant": "random execution mask", "anchors": ["pymoo/core/crossover.py: Crossover.do"]}
{"id": "C26", "title": "Variation operators stay inside the box", "statement": "SBX, polynomial and Gaussian mutation, DE repairs and all bound repairs return values inside [xl, xu] whenever the box is non-empty (and the parents are inside where the repair refers to a parent), whatever the random numbers are. Exception: bounce-back and periodic repair turn a value outside into NaN exactly when the variable is fixed (xl = xu).", "quantifier": "all inputs, bounds and random numbers", "why_tests_cant": "all random numbers; rounding", "anchors": ["pymoo/operators/crossover/sbx.py: cross_sbx", "pymoo/operators/mutation/{pm,gauss}.py", "pymoo/operators/repair/*.py", "pymoo/operators/crossover/dex.py"]}
{"id": "C27", "title": "Sampling stays inside the domain", "statement": "Random float, integer, binary and permutation sampling and Latin hypercube sampling return the requested number of points in the domain; integer sampling can reach both bounds; Latin hypercube sampling puts exactly one point into each of the n strata of every variable.", "quantifier": "all sizes, bounds, random numbers", "why_tests_cant": "random", "anchors": ["pymoo/operators/sampling/rnd.py", "pymoo/operators/sampling/lhs.py"]}
{"id": "C28", "title": "Rounding keeps integers in bounds", "statement": "Rounding repair of values inside integer bounds yields integers inside these bounds, and leaves integers unchanged.", "quantifier": "all values and integer bounds", "why_tests_cant": "half-way cases", "anchors": ["pymoo/operators/repair/rounding.py"]}
{"id": "C29", "title": "Tournament selection is fair and never prefers an infeasible solution", "statement": "Tournament selection draws competitors from concatenated permutations, so the numbers of participations of any two individuals differ by at most one; NSGA-II's binary tournament returns one of the two competitors and never one that the other beats by (violation, dominance or rank, crowding) in this order.", "quantifier": "all populations, all permutations, all pressures", "why_tests_cant": "random", "anchors": ["pymoo/operators/selection/tournament.py", "pymoo/algorithms/moo/nsga2.py: binary_tournament", "pymoo/util/misc.py: random_permutations"]}
{"id": "C30", "title": "Differential evolution parents are distinct", "statement": "DE parent selection returns for every target an index row starting with the target itself, with all further random parents in range, different from each other and from the fixed ones.", "quantifier": "all population sizes and random draws for which the rejection loop stops", "why_tests_cant": "random", "anchors": ["pymoo/operators/selection/des.py: DES"]}
{"id": "C31", "title": "Duplicate-free random filling", "statement": "fast_fill_random leaves in each filled column only values different from the other filled columns of the same row (within the allowed attempts).", "quantifier": "all random draws (false: see refutation)", "why_tests_cant": "needs a second attempt with a particular subset of rows", "anchors": ["pymoo/operators/selection/rnd.py: fast_fill_random"]}
{"id": "C32", "title": "Randomised sorting is sorting", "statement": "The randomised argsort returns a permutation of the indices that sorts the values ascending (or descending on request), for every random permutation and every pivot choice.", "quantifier": "all arrays, all random choices", "why_tests_cant": "random pivots", "anchors": ["pymoo/util/randomized_argsort.py"]}
{"id": "C33", "title": "Stochastic ranking", "statement": "Stochastic ranking always returns a permutation; with comparison probability 0 it returns feasible solutions sorted by objective followed by infeasible ones sorted by violation, and with all solutions feasible it sorts by objective whatever the random numbers.", "quantifier": "all vectors, all random numbers", "why_tests_cant": "random", "anchors": ["pymoo/functions/standard/stochastic_ranking.py"]}
{"id": "C34", "title": "Generation and evaluation budgets", "statement": "A run limited to n generations performs exactly n iterations (fewer only if termination is forced); a run limited to n evaluations stops after the first iteration in which the counter reaches n, so it exceeds the budget by less than one iteration's evaluations.", "quantifier": "all algorithms following the infill/advance scheme, all budgets", "why_tests_cant": "loop property for every n", "anchors": ["pymoo/core/algorithm.py: run, has_next, next, advance, _post_advance", "pymoo/termination/max_gen.py", "pymoo/termination/max_eval.py"]}
{"id": "C35", "title": "Termination combinators", "statement": "Forced termination is sticky and takes effect on the next update; 'any' terminates exactly when some member reports completion and 'all' exactly when every member does; members are all updated on each step.", "quantifier": "all criteria, all histories of updates", "why_tests_cant": "history property", "anchors": ["pymoo/core/termination.py", "pymoo/termination/collection.py"]}
{"id": "C36", "title": "Robust and sliding-window termination", "statement": "The sliding window always holds the last min(size, count) entries in order; robust termination is complete exactly when the wrapped criterion was complete after each of the last min(period, count) updates - in particular, from the period-th update on, after each of the last `period` ones, but before that it may stop after fewer.", "quantifier": "all histories, periods and wrapped criteria", "why_tests_cant": "history property", "anchors": ["pymoo/util/sliding_window.py", "pymoo/termination/robust.py"]}
{"id": "C37", "title": "Target value termination", "statement": "The minimum-function-value criterion stops exactly when the best feasible objective has reached fmin.", "quantifier": "all objective values (false for negative targets: see refutation)", "why_tests_cant": "sign cases", "anchors": ["pymoo/termination/fmin.py"]}
{"id": "C38", "title": "Ask-tell equals the closed loop", "statement": "Driving an algorithm by ask, evaluating, and tell leaves it in the same state as next; the iteration counter counts the completed iterations, the optimum is refreshed in each, history has one entry per iteration, and the archive receives exactly the told solutions. Exception: the Result returned by the last tell carries the archive without the solutions just told.", "quantifier": "all algorithms, all numbers of steps", "why_tests_cant": "all histories", "anchors": ["pymoo/core/algorithm.py"]}
{"id": "C39", "title": "Result reporting", "statement": "The result is successful exactly when the optimum contains a feasible solution; otherwise nothing is reported unless the least infeasible solution was requested, in which case a solution of minimal violation is reported. Exception: if the optimum holds several infeasible solutions, the reported X, F and CV arrays are those of the whole optimum and not of the reported least infeasible solution.", "quantifier": "all optima", "why_tests_cant": "all populations", "anchors": ["pymoo/core/algorithm.py: result", "pymoo/util/optimum.py: filter_optimum"]}
{"id": "C40", "title": "Optimum filter", "statement": "filter_optimum returns exactly the feasible non-dominated solutions (multi-objective), one feasible solution of minimal objective (single objective), and otherwise a solution of minimal violation if requested or nothing.", "quantifier": "all populations", "why_tests_cant": "all sizes and ties", "anchors": ["pymoo/util/optimum.py: filter_optimum"]}
{"id": "C41", "title": "Archive invariant", "statement": "After any sequence of additions an archive contains only solutions that were added, at most max_size of them; if any feasible solution was ever added it contains only feasible, mutually non-dominated, non-duplicate ones; as long as no truncation was necessary and duplicate solutions have equal values, it contains (up to duplicates) exactly the best solutions of everything ever added.", "quantifier": "all sequences of additions, all truncation strategies", "why_tests_cant": "history property", "anchors": ["pymoo/util/archive.py"]}
{"id": "C42", "title": "Elitism of the genetic algorithm", "statement": "With an elitist survival the best solution (feasible first, then least violation, then objective) of the population never worsens over any number of generations, and the population size stays constant once reached.", "quantifier": "all problems, all random choices, all numbers of generations", "why_tests_cant": "history property", "anchors": ["pymoo/algorithms/base/genetic.py", "pymoo/algorithms/soo/nonconvex/ga.py: FitnessSurvival"]}
{"id": "C43", "title": "Population container laws", "statement": "Merging populations concatenates (empty and None are neutral, associative); setting an attribute per individual and getting it back returns the same values in order; a length mismatch raises and changes nothing... for that key; new populations have the common length of the inputs.", "quantifier": "all populations/values", "why_tests_cant": "all sizes", "anchors": ["pymoo/core/population.py"]}
{"id": "C44", "title": "Parameter flattening round trip", "statement": "Flattening a nested parameter dictionary to dotted names and rebuilding the hierarchy gives back the same dictionary.", "quantifier": "all nested dictionaries whose keys contain no dot and that contain no empty sub-dictionary", "why_tests_cant": "unbounded nesting", "anchors": ["pymoo/core/parameters.py: flatten, hierarchical"]}
{"id": "C45", "title": "Setting nested parameters", "statement": "set_params(obj, params, as_value) treats nested parameters in the same mode as top-level ones.", "quantifier": "all nested parameter dictionaries (false for as_value=False: see refutation)", "why_tests_cant": "nesting depth", "anchors": ["pymoo/core/parameters.py: set_params"]}
{"id": "C46", "title": "Das-Dennis reference directions", "statement": "Das-Dennis reference directions with p partitions in n dimensions: there are exactly C(n+p-1, p) of them, all different, every coordinate a multiple of 1/p in [0,1], each summing to one - and every such point occurs. The class used incrementally yields the same points, except that with 0 partitions it yields none.", "quantifier": "all dimensions and partition numbers", "why_tests_cant": "all n, p", "anchors": ["pymoo/util/ref_dirs/das_dennis.py", "pymoo/util/reference_direction.py"]}
{"id": "C47", "title": "Decompositions respect dominance", "statement": "Weighted sum, Tchebicheff and ASF scalarisations never assign a dominated point a strictly smaller value than its dominator (non-negative weights, reference point below), and the one-to-one/one-to-many/many-to-one/many-to-many shapes pair the points and weights row by row as named.", "quantifier": "all points, weights, shapes", "why_tests_cant": "all sizes", "anchors": ["pymoo/core/decomposition.py", "pymoo/decomposition/*.py"]}
{"id": "C48", "title": "Cache returns the first result", "statement": "A cached problem quantity (pareto front, set, ideal, nadir point) is computed at most once; later calls return the first result whatever the arguments, unless caching is bypassed. Exception: bypassing the cache of the set, ideal or nadir point does not bypass the cache of the front they are computed from.", "quantifier": "all call sequences", "why_tests_cant": "history property", "anchors": ["pymoo/util/cache.py"]}
{"id": "C49", "title": "Roulette and clearing selections return valid indices", "statement": "Roulette selection always returns an index of the population with the zero-probability entries never chosen; clearing selection returns the requested number of distinct indices.", "quantifier": "all fitness vectors and random numbers; all distance matrices", "why_tests_cant": "random", "anchors": ["pymoo/util/roulette.py", "pymoo/util/clearing.py"]}
{"id": "C50", "title": "Crowding distance", "statement": "Crowding distance gives infinite values to the extreme points of each objective and to all others the normalised side-length sum of the cuboid of neighbours; the result does not depend on the order of the points when objective values are distinct.", "quantifier": "all fronts", "why_tests_cant": "all sizes", "anchors": ["pymoo/operators/survival/rank_and_crowding/metrics.py: calc_crowding_distance"]}
{"id": "C51", "title": "Reproducibility under a seed", "statement": "Two runs of an operator with the same random state draw the same numbers: all randomness comes from the passed generator.", "quantifier": "all inputs (false for Gaussian mutation, DE crossover and constrained survival: see refutation)", "why_tests_cant": "needs the generator as an explicit input", "anchors": ["pymoo/operators/mutation/gauss.py: mut_gauss", "pymoo/operators/crossover/dex.py: DEX.do", "pymoo/operators/survival/rank_and_crowding/classes.py"]}
{"id": "C52", "title": "Elementwise equals vectorised evaluation", "statement": "Evaluating a problem element by element returns row by row what the element function returns, for any runner that maps in order; missing required values become infinite, NaN are replaced on request, a single point gives unbatched results.", "quantifier": "all point sets", "why_tests_cant": "all sizes", "anchors": ["pymoo/core/problem.py: evaluate, _evaluate_elementwise, _format_dict"]}
{"id": "C53", "title": "Tolerance based termination", "statement": "A tolerance based criterion (design space, objective space, constraint violation) always reports progress between 0 and 1, and reports completion exactly on the updates that perform a comparison and find the change to be within the tolerance; the first update and skipped updates never report completion; after completing it keeps the same reference.", "quantifier": "all histories of observations, tolerances, skip counts", "why_tests_cant": "history property", "anchors": ["pymoo/termination/delta.py"]}
{"id": "C54", "title": "Parameter discovery", "statement": "get_params(obj) returns every Variable reachable through attributes or dictionary entries that has the requested flag and is active, each exactly once (even when referenced from several places) under a path where it is found, and nothing else.", "quantifier": "all (tree shaped) objects, all flags", "why_tests_cant": "ranges over all object structures", "anchors": ["pymoo/core/parameters.py: get_params, get_params_bfs"]}
{"id": "C55", "title": "Mapping onto the unit simplex", "statement": "map_onto_unit_simplex turns every row of random numbers in [0,1) (with a positive sum for the 'sum' method) into a point of the unit simplex - non-negative coordinates summing to one - for both the 'sum' and the 'kraemer' method.", "quantifier": "all random matrices, all dimensions", "why_tests_cant": "ranges over all random draws", "anchors": ["pymoo/util/reference_direction.py: map_onto_unit_simplex, sample_on_unit_simplex"]}
{"id": "C56", "title": "Farthest-first selection of points", "statement": "select_points_with_maximum_distance, asked for no more points than there are, returns pairwise different indices, each new one farthest from the already selected points.", "quantifier": "all point sets, all selections", "why_tests_cant": "ranges over all point sets and selection lengths", "anchors": ["pymoo/util/reference_direction.py: select_points_with_maximum_distance"]}
{"id": "C57", "title": "Incremental reference directions", "statement": "incremental_lattice(p, n) consists of pairwise different points of the unit simplex, exactly those with coordinates j/(np)+k/p for a common offset j with some k equal to 0; a requested number of points is accepted exactly if some partition number produces it.", "quantifier": "all dimensions and partition numbers", "why_tests_cant": "all n, p", "anchors": ["pymoo/util/ref_dirs/incremental.py"]}
{"id": "C58", "title": "Projection onto the unit simplex", "statement": "project_onto_unit_simplex_recursive terminates for every row with a positive entry and returns a point of the unit simplex; rows with no negative entry are left unchanged.", "quantifier": "all matrices", "why_tests_cant": "termination for every input", "anchors": ["pymoo/util/ref_dirs/misc.py: project_onto_unit_simplex_recursive, project_onto_sum_equals_one_plane"]}
{"id": "C59", "title": "NSGA-III niching and survival", "statement": "NSGA-III's survival returns exactly n_survive different individuals: all fronts before the splitting front, and from the splitting front a selection made one by one so that each chosen individual belongs to a niche with the fewest survivors among the niches that still have members, the closest member being taken when the niche has no survivor yet. An individual's niche is a reference direction whose line has the smallest Euclidean distance to its normalised objectives. The loop always ends; asking for more members than there are raises an exception.", "quantifier": "all populations, objective values, numbers of survivors, reference directions, niche counts, random permutations and shuffles", "why_tests_cant": "tests fix populations and seeds; the claim is about every population and every random tie-break", "anchors": ["pymoo/algorithms/moo/nsga3.py: ReferenceDirectionSurvival._do, niching, associate_to_niches, calc_niche_count", "pymoo/functions/standard/calc_perpendicular_distance.py"]}
{"id": "C60", "title": "NSGA-III's optimum is part of the population", "statement": "The optimum reported by NSGA-III's survival is never empty, consists of non-dominated individuals, and all of them are among the survivors.", "quantifier": "all populations, distances to directions, numbers of survivors and random choices", "why_tests_cant": "the violating populations are rare and random; a test would have to hit one", "anchors": ["pymoo/algorithms/moo/nsga3.py: ReferenceDirectionSurvival._do (self.opt), NSGA3._set_optimum"]}
{"id": "C61", "title": "Ideal, worst, extreme and nadir points of NSGA-III's normalisation", "statement": "After any sequence of updates the ideal and worst points are the smallest and largest objective values ever seen, the extreme points are members that minimise the achievement scalarisation among previous extreme points and the current front, and the nadir point lies between ideal and worst; it is the hyperplane's intercepts when these are valid (cut off at the worst values), otherwise the worst of the front, and collapses onto the ideal point only where the whole population does.", "quantifier": "all histories of updates, numbers of objectives, fronts and results of the linear solver (including failure)", "why_tests_cant": "the state is accumulated over generations; degenerate fronts and failing solves are rare", "anchors": ["pymoo/algorithms/moo/nsga3.py: HyperplaneNormalization.update, get_extreme_points_c, get_nadir_point", "pymoo/util/normalization.py: get_extreme_points_c, get_nadir_point"]}
{"id": "C62", "title": "Normalisation to [0, 1]", "statement": "normalize and denormalize are inverse for any mixture of missing, equal and proper bounds; a value is within its bounds iff the normalised value is in [0, 1]; bounds estimated from the data give a result in [0, 1] with 0 (and 1 unless constant) attained in each column; SimpleZeroToOneNormalization keeps the bounds of its first call; ObjectiveSpaceNormalization's ideal point is the minimum over all (feasible) solutions ever seen; denormalising a number in [0, 1] gives a value within the bounds. Exceptions: denormalising a fixed variable (equal bounds) keeps the number's offset and so can leave the bounds, and integer arrays are truncated to integers.", "quantifier": "all matrices, bounds and call histories", "why_tests_cant": "laws over all real matrices, bound patterns and histories", "anchors": ["pymoo/util/normalization.py: ZeroToOneNormalization, SimpleZeroToOneNormalization, normalize, denormalize, find_ideal, ObjectiveSpaceNormalization"]}
{"id": "C63", "title": "The normalised problem evaluates the original one at the denormalised point", "statement": "Evaluating ZeroToOne(problem) at a point of the unit cube gives the value of the original problem at the corresponding (denormalised) point within the original bounds.", "quantifier": "all problems, bounds and points", "why_tests_cant": "must hold for every problem and point", "anchors": ["pymoo/problems/zero_to_one.py: ZeroToOne.do"]}
{"id": "C64", "title": "DIRECT partitions the search space", "statement": "At every point of a DIRECT run the boxes of the archive tile the search space: they cover it, do not overlap, and every evaluated point is the centre of its box (so it is within the bounds and no point is evaluated twice); box sides are powers of 1/3 of the domain with exponents differing by at most one; each iteration divides the members that are non-dominated in box size and penalised value, among them a largest box, and adds two points per divided member. (Tiling as long as the archive is not truncated, selection of a largest box as long as at most n_max_candidates members are non-dominated.)", "quantifier": "all problems with lower < upper bounds for every variable, objective and constraint values, parameters and numbers of iterations", "why_tests_cant": "an invariant over all iteration histories and evaluation results", "anchors": ["pymoo/algorithms/soo/nonconvex/direct.py: DIRECT._setup, _potential_optimal, _infill, _advance, update_bounds, norm_bounds"]}
{"id": "C65", "title": "Distance indicators GD, GD+, IGD, IGD+", "statement": "GD/GD+ (IGD/IGD+) equal the mean over solutions (front points) of the scaled distance, one-sided for the plus versions, to the nearest front point (solution), under every combination of zero_to_one and norm_by_dist; they are non-negative and zero exactly when all solutions are on (weakly better than) the front, or all front points are found (weakly dominated); adding solutions never worsens IGD/IGD+, nor do order and repetitions matter; IGD+ and GD+ never contradict dominance.", "quantifier": "all fronts, solution sets, numbers of objectives, ideal and nadir points and options", "why_tests_cant": "laws about all finite sets of real vectors", "anchors": ["pymoo/indicators/distance_indicator.py", "pymoo/indicators/gd.py", "pymoo/indicators/gd_plus.py", "pymoo/indicators/igd.py", "pymoo/indicators/igd_plus.py", "pymoo/core/indicator.py: Indicator.do", "pymoo/util/misc.py: vectorized_cdist", "pymoo/util/normalization.py: PreNormalization"]}
{"id": "C66", "title": "MOEA/D replaces only neighbours and never worsens a subproblem", "statement": "In every run of MOEA/D, whatever offspring the mating produces: the neighbourhood of a subproblem is the n_neighbors closest directions and contains the subproblem itself; an offspring replaces exactly those neighbours for whose direction it is strictly better at the current ideal point, so that no step worsens a subproblem; the population size is kept, every member was evaluated, the ideal point is the component-wise minimum of all evaluated solutions; each sweep treats each subproblem once and counts as one iteration; the parents are distinct and come from the neighbourhood with the given probability; if the scalarisation does not depend on the ideal point (weighted sum), each subproblem keeps the best solution of its neighbourhood's offspring found for it. In the parallel variant with q children per mating, the child offered at subproblem k was created for subproblem (k*q + pick) mod n, i.e. for k itself when q = 1 (and not in general).", "quantifier": "all reference directions, scalarisations, populations, sequences of offspring and random permutations", "why_tests_cant": "quantifies over all offspring sequences and random choices", "anchors": ["pymoo/algorithms/moo/moead.py", "pymoo/core/algorithm.py: LoopwiseAlgorithm", "pymoo/core/decomposition.py", "pymoo/core/crossover.py: Crossover.do"]}
{"id": "C67", "title": "Bracketing searches keep the minimum", "statement": "Golden section search started on [a, b] keeps four ordered evaluated points, its bracket shrinks by the factor (sqrt 5 - 1)/2 in every iteration inside the previous one, never loses the minimum of a unimodal function (so after k iterations all points are within ratio^k (b - a) of it), and the best value of its population never gets worse; the bracket is the one given by the user, else the bounds of the problem. Quadratic interpolation search starts with the middle of the bracket and interpolates a parabola exactly.", "quantifier": "all objective functions on the reals, brackets and numbers of iterations", "why_tests_cant": "holds for all functions and arbitrarily many iterations", "anchors": ["pymoo/algorithms/base/bracket.py", "pymoo/algorithms/soo/univariate/golden.py", "pymoo/algorithms/soo/univariate/quadr_interp.py"]}
{"id": "C68", "title": "Wolfe line search", "statement": "For a descent direction of a differentiable function the line search returns an evaluated point that satisfies the strong Wolfe conditions (sufficient decrease and curvature).", "quantifier": "all objective functions with their directional derivatives, constants c1, c2 and iteration limits", "why_tests_cant": "holds for all functions; non-termination cannot be tested", "anchors": ["pymoo/algorithms/soo/univariate/wolfe.py"]}
{"id": "C69", "title": "Nelder-Mead keeps a valid simplex and, from the second step on, its best point", "statement": "max_alpha(point, direction, xl, xu): from a point of the box no step of at most the returned factor leaves the box, and from an interior point of a two-sided box it is the largest such factor. Nelder-Mead: the initial simplex is x0 plus one point per variable that differs from x0 in exactly that variable, inside the bounds; every step ends with n_var + 1 evaluated points sorted from best to worst, all points ever evaluated are inside the bounds, a step costs 1, 2 or n_var + 2 evaluations and either replaces exactly the worst point by a strictly better one or moves all others by delta towards the best. From the second step on (the first works on an unsorted simplex) nothing evaluated so far beats the first member of the population. The exceptions are pinned down by counterexamples: the first step can drop the best vertex even of a linear function, one-variable problems collapse at the first shrink, max_alpha is 0 on the boundary or with one-sided bounds, and init_simplex_scale has no effect.", "quantifier": "all numbers of variables, bounds, starting points, parameters in the convex range, objective and constraint values (even inconsistent ones) and numbers of steps", "why_tests_cant": "all evaluations and arbitrarily many steps", "anchors": ["pymoo/algorithms/soo/nonconvex/nelder.py", "pymoo/util/vectors.py: max_alpha", "pymoo/algorithms/base/local.py", "pymoo/core/replacement.py: is_better", "pymoo/core/algorithm.py: LoopwiseAlgorithm"]}
{"id": "C70", "title": "Pattern search reports the best point evaluated", "statement": "Hooke-Jeeves pattern search: an exploration returns a point that no point it evaluated beats, and returns its centre only after both neighbours along every variable have been tried in vain; every tried point changes one coordinate by the current step, cut off at the bounds; all points are inside the bounds; the centre never gets worse; the step factor is init_rho to the number of unsuccessful iterations; after every iteration the reported optimum is an evaluated point which no point evaluated so far, initial sample included, beats. (The order of the variables is drawn from an unseeded generator and changes the result, so a seed does not determine a run.)", "quantifier": "all problems, bounds, step parameters, variable orders, objective and constraint values and numbers of iterations", "why_tests_cant": "all evaluations, random orders and arbitrarily many iterations", "anchors": ["pymoo/algorithms/soo/nonconvex/pattern.py", "pymoo/util/optimum.py: filter_optimum", "pymoo/util/__init__.py: default_random_state"]}
{"id": "C71", "title": "Constraints as an objective", "statement": "Wrapping a constrained problem with ConstraintsAsObjective(append_constraints=True) and asking for F, G and H gives n_obj+1 objectives per point: the total constraint violation followed by the original objectives, in order, and the original values under __F__, __G__, __H__; the first objective is never negative and is 0 exactly for the feasible points, so the non-dominated points with first objective 0 are exactly the non-dominated feasible points of the original. Exceptions: evaluating the wrapper with default arguments (or through the standard tuple for F, G, H) raises KeyError when the wrapped problem does not set both G and H, and with append=False F is one-dimensional and the declared Pareto front has too many columns.", "quantifier": "all wrapped problems whose rows have the declared sizes, all point lists, all names asked for, all violation configurations", "why_tests_cant": "tests use one constrained problem; the claim ranges over all problems and constraint settings", "anchors": ["pymoo/constraints/as_obj.py:ConstraintsAsObjective", "pymoo/core/individual.py:calc_cv", "pymoo/core/problem.py:Problem.do"]}
{"id": "C72", "title": "Constraints as a penalty", "statement": "With one objective, ConstraintsAsPenalty returns f + penalty * violation for every point and stores the original values; for a positive penalty feasible points keep their objective value and infeasible ones get a strictly larger one, hence if a best point of the penalised problem is feasible it is a best feasible point of the original. With two or more objectives every evaluation of a non-empty set raises.", "quantifier": "all wrapped problems, point lists, penalties", "why_tests_cant": "exactness is a statement about all point sets; tests evaluate a few points", "anchors": ["pymoo/constraints/as_penalty.py:ConstraintsAsPenalty"]}
{"id": "C73", "title": "Constraints from bounds", "statement": "ConstraintsFromBounds adds two inequality constraints per variable; a point satisfies all of them and the original ones exactly when it satisfies the original inequality constraints and lies in the box, other outputs are unchanged, and the total violation is the original one plus the amounts by which the bounds are exceeded. With remove_bonds=True every evaluation raises.", "quantifier": "all wrapped problems with bounds, all point lists, inside or outside of the box", "why_tests_cant": "must hold for every point and every box", "anchors": ["pymoo/constraints/from_bounds.py:ConstraintsFromBounds"]}
{"id": "C74", "title": "Adaptive epsilon constraint handling", "statement": "With AdaptiveEpsilonConstraintHandling the survival of the initial population and the first iteration compare with tolerance 0, and every later iteration with tolerance max(0, 1 - t/perc_eps_until) * (mean initial violation), where t is the progress that had been reached before the preceding iteration: the tolerance lies between 0 and the mean initial violation, never grows for non-decreasing progress and is 0 from perc_eps_until on; between the calls the tolerance is 0, so the reported optimum is never relaxed. A budget of evaluations never makes progress: the evaluations are counted elsewhere.", "quantifier": "all runs: numbers of evaluations, progress sequences, initial violations, perc_eps_until", "why_tests_cant": "histories of arbitrary length and arbitrary progress sequences", "anchors": ["pymoo/constraints/adaptive.py:AdaptiveConstraintHandling", "pymoo/constraints/eps.py:AdaptiveEpsilonConstraintHandling", "pymoo/constraints/adaptive.py:AttachConfigEvaluator"]}
{"id": "C75", "title": "Converting to a single objective by decomposition", "statement": "MultiToSingleObjective with keyword arguments (weights and optional ideal or utopian point) gives, for a list of any number of points except one, a column with the scalarisation of each point's objectives. For exactly one point the result has one axis too many, and without keyword arguments every evaluation raises.", "quantifier": "all scalarisation functions, weights, objective matrices with at least two objectives", "why_tests_cant": "all matrices and scalarisations; tests evaluate whole populations only", "anchors": ["pymoo/problems/multi_to_single.py:MultiToSingleObjective", "pymoo/core/decomposition.py:Decomposition.do"]}
{"id": "C76", "title": "Problems given by functions or by values", "statement": "FunctionalProblem returns for every point the values of the objective and constraint functions in their order, for any correct parallel runner. StaticProblem over a vectorised problem returns exactly the given values, one row per point; over an elementwise problem it raises as soon as there are two points.", "quantifier": "all lists of functions, runners, given values, point lists, names asked for", "why_tests_cant": "ranges over all functions and values", "anchors": ["pymoo/problems/functional.py:FunctionalProblem", "pymoo/problems/static.py:StaticProblem", "pymoo/core/meta.py:Meta"]}
{"id": "C77", "title": "Differential evolution never loses the best solution", "statement": "In every generation of DE an offspring takes the place of its own target exactly if it is strictly better (feasible before infeasible, then smaller violation, then smaller objective) and equals neither an earlier offspring nor one of the targets; all other places are untouched and the population keeps its size. After any number of generations the reported optimum is a single evaluated solution that no solution evaluated in the run beats. Trial vectors of individuals inside of the box stay inside for every crossover (bin, exp, line, hypercube), and with bin and exp at least one coordinate comes from the donor. Exceptions: more offspring than individuals raise; with fewer offspring than individuals only the first n_offsprings places can ever change.", "quantifier": "all population and offspring sizes, numbers of generations, offspring, random permutations and draws, bounds, crossover kinds, deterministic NaN-free evaluations", "why_tests_cant": "ranges over all runs and random draws", "anchors": ["pymoo/algorithms/soo/nonconvex/de.py:DE", "pymoo/algorithms/soo/nonconvex/de.py:Variant", "pymoo/core/replacement.py:ImprovementReplacement"]}
{"id": "C78", "title": "Particle swarm: records, movement, adaptation", "statement": "A particle's record (pop) changes exactly if its new position is strictly better and is not equal to an earlier particle's new position or to any record; over any run the swarm keeps its size and the reported optimum is a single evaluated solution beaten by no position ever evaluated. Velocities never exceed max_velocity_rate times the range, particles inside of the box stay inside. The four membership values lie in [0,1] with at least one of them >= 1/3, the strategy is the one with the largest membership (thresholds 7/30, 1/2, 23/30), c1 and c2 stay in [1.5, 2.5], the inertia stays strictly between 0 and 1 and grows with the factor. Exceptions: a particle does not record a position that another particle has on record although it is its best; c1 + c2 can exceed 4; the evolutionary factor can be negative; one particle or missing bounds raise.", "quantifier": "all swarm sizes, numbers of generations, positions, velocities, random draws, bounds, coefficients, factors, deterministic NaN-free evaluations", "why_tests_cant": "ranges over all runs and random draws", "anchors": ["pymoo/algorithms/soo/nonconvex/pso.py:PSO", "pymoo/algorithms/soo/nonconvex/pso.py:pso_equation", "pymoo/operators/repair/to_bound.py:set_to_bounds_if_outside"]}
{"id": "C79", "title": "Evolution strategies keep step sizes and offspring in bounds, and ES reports the best solution ever evaluated", "statement": "ES, SRES and ISRES accept only configurations with at least twice as many offspring as survivors (the default rule keeps a seventh, rounded up, and works for every number of offspring from two on). On bounded problems every offspring coordinate is within the bounds and every step size is positive and at most (xu-xl)/sqrt(n_var), for ISRES if 0 <= alpha <= 1; an out-of-bounds value is redrawn and finally replaced by the parent's. The population keeps pop_size members, all evaluated. For ES the reported optimum is one solution that no evaluated solution beats, although survivors come from the offspring only (the population itself may lose it). Exceptions: SRES/ISRES may discard a feasible offspring and then report an infeasible optimum; on constrained problems their stochastic ranking draws from an unseeded generator, so seeded runs cannot be repeated; problems without bounds raise.", "quantifier": "all sizes and rules, all populations within bounds, all random numbers, all sequences of (partly evaluated) generations", "why_tests_cant": "Runs are random and of any length; the invariants must hold for every draw and every history, and seeded tests of SRES pass by accident on unconstrained problems.", "anchors": ["pymoo/algorithms/soo/nonconvex/es.py: ES, es_mut_repair, es_intermediate_recomb, es_sigma", "pymoo/algorithms/soo/nonconvex/sres.py: SRES, StochasticRankingSurvival", "pymoo/algorithms/soo/nonconvex/isres.py: ISRES._infill"]}
{"id": "C80", "title": "SMS-EMOA survival keeps the hypervolume, one offspring at a time", "statement": "The survival of SMS-EMOA selects exactly the requested number of solutions, feasible ones first, better Pareto ranks first, and truncates the last front by repeatedly removing a solution whose removal leaves the greatest hypervolume. With one individual more than survive, the survivors have the greatest hypervolume of all selections of that size; hence with one offspring per generation the hypervolume (with respect to that generation's reference point) never decreases. With several offspring per generation - the default - it can decrease.", "quantifier": "all objective matrices without NaN, any number of objectives, all population sizes, any reference point, any correct sorter and hypervolume library", "why_tests_cant": "Optimality over all subsets of all populations cannot be enumerated; random tests rarely hit the configurations in which greedy removal loses hypervolume.", "anchors": ["pymoo/algorithms/moo/sms.py: LeastHypervolumeContributionSurvival._do, SMSEMOA._advance"]}
{"id": "C81", "title": "SPEA2's survival: strength fitness, environmental selection and truncation", "statement": "For every population with well-formed finite objective vectors, SPEA2's survival returns exactly n distinct members. The raw fitness of a solution is the sum, over the solutions that dominate it, of the number of solutions those dominate, and is 0 exactly for non-dominated ones; the fitness is below 1 exactly for non-dominated solutions, and a dominator is fitter by at least 1/2. If the non-dominated solutions fit, all of them survive with the fittest of the others, so that with a solution all its dominators survive; otherwise only non-dominated solutions survive, those left after repeatedly removing a member whose sorted distance vector to the remaining ones is lexicographically least - in particular one of a closest pair. The density uses the (floor(sqrt(n))+1)-th nearest neighbour, one further than the SPEA2 paper's k-th. With two objectives the truncation never loses the best value of either objective as long as at least two solutions are kept; with three objectives it can remove the only solution that is best in an objective (refutation). With constraints, feasible solutions survive before infeasible ones and these by increasing violation.", "quantifier": "all populations, objective vectors of any dimension, any non-negative distances (any normalisation), every stable or unstable sorter of the fitness, every n", "why_tests_cant": "the selection depends on the whole domination relation and on a sequence of lexicographic minima over distance vectors; tests only see particular populations", "anchors": ["pymoo/algorithms/moo/spea2.py:_truncation_candidate", "pymoo/algorithms/moo/spea2.py:SPEA2Survival._do", "pymoo/util/dominator.py:Dominator.calc_domination_matrix"]}
{"id": "C82", "title": "RVEA: one survivor per reference direction, and what that does not guarantee", "statement": "In exact arithmetic, for at least two reference directions, none of them zero: RVEA's survival assigns every solution to a direction enclosing the smallest angle with it (seen from the ideal point), keeps exactly one solution per occupied direction - one of least angle-penalised distance, with the angle to the nearest other direction as the scale - and nothing else, so that between one and as many solutions survive as there are directions, whatever number was asked for. The ideal point is the componentwise minimum of all objective vectors ever seen, the nadir point the maximum of the survivors; adapting makes each vector a unit vector parallel to the direction scaled by their difference. Exceptions, all proved: if some scaled direction vanishes (e.g. an objective is constant in the population and a direction lies on its axis) the vector is NaN and every later survival keeps only the first individual; a survivor may be dominated by another one and the only best solution of an objective may be removed, although there is room; with constraints, infeasible solutions (by increasing violation) take the places left over by discarded feasible ones, and are then reported as optimal next to feasible ones. An evaluation budget above the population size is never used up, and missed by at most one generation; a smaller one evaluates the initial population.", "quantifier": "all reference directions, populations, histories of survivals and adaptations, generations and exponents, budgets", "why_tests_cant": "the claims range over all geometric configurations and histories; the collapse needs a degenerate population at the moment of an adaptation", "anchors": ["pymoo/algorithms/moo/rvea.py:APDSurvival._do", "pymoo/algorithms/moo/rvea.py:APDSurvival.adapt", "pymoo/algorithms/moo/rvea.py:calc_gamma", "pymoo/algorithms/moo/rvea.py:RVEA._setup", "pymoo/algorithms/moo/rvea.py:RVEA._set_optimum", "pymoo/core/survival.py:Survival.do"]}
{"id": "C83", "title": "C-TAEA's two archives: exact size, feasibility first, balanced niches, termination, and what is reported", "statement": "After every survival step of CTAEA the convergence archive (algorithm.pop) holds exactly pop_size different individuals of the merged population; an infeasible one is kept only if no feasible one is left out, and then no infeasible one left out is at least as good in both violation and decomposed fitness and better in one. With more feasible individuals than places, the candidates are those of the Pareto fronts needed to fill the archive; they are removed one by one, each from a most crowded niche (the one with the worst fitness there or the worse one of a closest pair), so that a niche that lost a candidate has at most one member less than any other, and no occupied niche gets empty if there are at most pop_size of them. The diversity archive holds exactly pop_size different entries of old archive plus offspring and no entry left out dominates one taken in the same region; its update terminates exactly if pop_size of the entries lie in one of the first pop_size regions - always in later iterations, but not in the first one if there are fewer individuals than reference directions: then it loops forever. The mating tournament returns one of the two, a feasible one if there is one, the dominating one of two feasible ones. It is NOT guaranteed that the reported solutions are feasible when the archive holds feasible ones, nor that any is reported at all, nor - when fewer than pop_size offspring are produced - that no individual is twice in the diversity archive.", "quantifier": "all populations, objective values, violations, niche associations, fitness values, distances, shuffles and correct sorters", "why_tests_cant": "the balance of the niches depends on every possible removal order; non-termination cannot be observed by a test; the failing reports need ties or special mixes of feasible and infeasible solutions", "anchors": ["pymoo/algorithms/moo/ctaea.py: CADASurvival, RestrictedMating, comp_by_cv_dom_then_random, CTAEA._set_optimum"]}
{"id": "C84", "title": "Mixed-variable mating and sampling", "statement": "For every problem whose variables have distinct names, non-empty ranges and choices of one kind (only strings, no strings, or with None among them), the mixed-variable sampling returns the requested number of dictionaries, each with exactly the problem's names in the problem's order and a value in the domain of its variable; the mixed-variable mating with the default operators returns exactly the requested number of offspring, each with exactly the problem's names and a value in each domain, for all parents that cover the variables (more generally for all operators that keep values in the domains); ceil(n/2) matings suffice for n offspring. Offspring k takes every binary value and every choice that mutation does not strike from one of the two parents of mating k mod n_matings, and is a copy of parent k / n_matings where neither crossover nor mutation is executed. Two solutions with the same names are duplicates iff all values agree. Pinned down: a Choice over strings and numbers yields values that are none of its options; the offspring's names are in the order of the types, not the problem's; the duplicate test is not symmetric for solutions with different names.", "quantifier": "all sets of variables, all parents, all random draws, all numbers of offspring, all operators keeping values in the domains", "why_tests_cant": "the claim ranges over every set of variable types, every population and every random draw", "anchors": ["/repo/pymoo/core/mixed.py: MixedVariableMating._do, MixedVariableSampling, MixedVariableDuplicateElimination", "/repo/pymoo/core/variable.py: Real, Integer, Binary, Choice", "/repo/pymoo/operators/mutation/rm.py: ChoiceRandomMutation"]}
{"id": "C85", "title": "Reported optima of the single-objective benchmarks", "statement": "In exact arithmetic, for every dimension, the value and the point that Sphere, Ackley (a, b > 0), Griewank, Rastrigin (A >= 0), Zakharov and (from dimension 2 on) Rosenbrock report as pareto_front and pareto_set are their global minimum - over all points, not only inside the bounds - and its only minimiser, which lies inside the bounds. Himmelblau's minimum is 0 and is attained by the reported point (3,2); the three other reported points are rounded (value positive, below 1e-9). Exceptions, proved: Schwefel is positive on the whole box, so its reported optimum 0 is attained nowhere (the reported point has a value below n/500); evaluating Rosenbrock with one variable raises.", "quantifier": "all dimensions, all points of the search space, all parameters in the stated range", "why_tests_cant": "a global minimum and its uniqueness range over a continuum of points in every dimension", "anchors": ["/repo/pymoo/problems/single/sphere.py: Sphere", "/repo/pymoo/problems/single/ackley.py: Ackley", "/repo/pymoo/problems/single/griewank.py: Griewank", "/repo/pymoo/problems/single/rastrigin.py: Rastrigin", "/repo/pymoo/problems/single/zakharov.py: Zakharov", "/repo/pymoo/problems/single/rosenbrock.py: Rosenbrock", "/repo/pymoo/problems/single/himmelblau.py: Himmelblau", "/repo/pymoo/problems/single/schwefel.py: Schwefel"]}
{"id": "C86", "title": "Reported Pareto fronts of the ZDT problems", "statement": "In exact arithmetic, for every admissible number of variables and every number of points, each point of the pareto_front reported by ZDT1, ZDT2, ZDT4, ZDT6 and ZDT5 (m >= 2, at least two points, normalised or not) is the objective vector of a point inside the bounds and is dominated by the objective vector of no point inside the bounds; every solution of ZDT1, 2, 4 and 6 is weakly dominated by a point of the curve the front samples. For ZDT3 the reported points are attained and every solution is weakly dominated by a point of the sampled curve, but - proved - from 10 points on the reported front contains two points one of which dominates the other. For ZDT5 the variables range over [0,1] as the class declares; on bit strings, for which it is meant, some of the reported points are not attained - proved.", "quantifier": "all numbers of variables, numbers of points, points of the box", "why_tests_cant": "non-dominance ranges over a continuum of solutions; the first abscissa of ZDT6 misses the least attainable value by less than 3e-10", "anchors": ["/repo/pymoo/problems/multi/zdt.py: ZDT1, ZDT2, ZDT3, ZDT4, ZDT5, ZDT6 (_evaluate, _calc_pareto_front)"]}
{"id": "C87", "title": "Reported Pareto fronts of the DTLZ problems", "statement": "In exact arithmetic, for all numbers of variables and objectives (n_obj <= n_var + 1): each point of the front DTLZ1 reports for reference directions on the unit simplex, and DTLZ2, 3, 4 (any positive integer exponent) for non-negative non-zero directions, is the objective vector of a point in [0,1]^n and is dominated by the objective vector of no such point; every solution is weakly dominated by a point of the simplex of sum 1/2 (DTLZ1) or of the unit sphere (DTLZ2-4), so that the reported surface is the whole front. The curve reported by DTLZ5 and DTLZ6 (n_obj <> 3) consists of attained, undominated points. Scaling objective i by s^i, s > 0, (ScaledDTLZ1) and the convex transformation (ConvexDTLZ2, ConvexDTLZ4) turn correct fronts of any problem (with non-negative objectives for the latter) into correct fronts. The rows of InvertedDTLZ1 are non-negative and add up to (n_obj-1)(1+g)/2. For DTLZ7 (n_obj <> 3) every computed point is attained and none is filtered out, but - proved - for every number of objectives some draws give a front in which one point dominates another.", "quantifier": "all numbers of variables and objectives, all reference directions, exponents, scale factors, points of the box, draws", "why_tests_cant": "attainability and non-dominance range over a continuum of solutions and over all numbers of objectives", "anchors": ["/repo/pymoo/problems/many/dtlz.py: DTLZ1-DTLZ7, InvertedDTLZ1, ScaledProblem, ConvexProblem, generic_sphere"]}
{"id": "C88", "title": "Reported optima of constrained and multimodal benchmarks", "statement": "In exact arithmetic, for every number of points: every solution BNH reports in pareto_set lies inside the bounds and satisfies the constraints, and pareto_front consists of attained, undominated objective vectors; SRN's reported front consists of attained vectors that no point at all dominates, and its reported solutions violate the first constraint by at most 2e-5 (exception, proved: the last one does violate it). For SYM-PART with length a >= 0, v_dist > 0, h_dist > 4a and any rotation angle, and for OmniTest in every dimension, the reported set lies inside the bounds and is Pareto optimal (exception, proved: with h_dist = 4a SYM-PART's set contains dominated solutions). The fronts reported by MW1, MW2, MW4 (any directions on the simplex; none is filtered out) and MW8 consist of objective vectors of feasible solutions and no feasible solution dominates them, for all admissible numbers of variables and objectives. Exceptions, proved: CantileveredBeam's reported optimum violates a constraint by up to 3e-6; PressureVessel's reported point has value above 6059, not the reported 5885.3, violates a constraint and a feasible point below 5886 exists.", "quantifier": "all numbers of points, variables, objectives, reference directions, rotation angles, tile sizes, points of the search space", "why_tests_cant": "feasibility, attainability and non-dominance range over a continuum of solutions and all dimensions", "anchors": ["/repo/pymoo/problems/multi/bnh.py: BNH", "/repo/pymoo/problems/multi/srn.py: SRN", "/repo/pymoo/problems/multi/sympart.py: SYMPARTRotated, SYMPART", "/repo/pymoo/problems/multi/omnitest.py: OmniTest", "/repo/pymoo/problems/multi/mw.py: MW1, MW2, MW4, MW8", "/repo/pymoo/problems/single/cantilevered_beam.py: CantileveredBeam", "/repo/pymoo/problems/single/pressure_vessel.py: PressureVessel"]}
{"id": "C89", "title": "Combinatorial problems", "statement": "In exact arithmetic: for every set of cities and every non-empty route through existing cities TravelingSalesman evaluates to the length of the closed tour; it does not depend on the starting city or on the direction, and is at least twice the distance between any two cities of the route. For every matrix of processing times (at least one machine and job) and job sequence, FlowshopScheduling's starting times are, for non-negative times, a schedule (machines handle one job at a time in the given order, jobs pass the machines in order), no such schedule starts any operation earlier, and the makespan is the finish time of the last operation, the least possible for the sequence. Knapsack returns minus the profit of the chosen items and satisfies its constraint exactly when they fit. Exceptions, proved: the declared upper bound of TravelingSalesman is not a city (a route using it raises); with two or more jobs more than machines every complete sequence leaves FlowshopScheduling's declared bounds; evaluating MultiObjectiveKnapsack on any non-empty set of solutions raises (it declares one objective and returns two).", "quantifier": "all cities, routes, processing times, job sequences, item weights and profits, sets of solutions", "why_tests_cant": "minimality ranges over all schedules, invariance over all routes and instances", "anchors": ["/repo/pymoo/problems/single/traveling_salesman.py: TravelingSalesman", "/repo/pymoo/problems/single/flowshop_scheduling.py: FlowshopScheduling", "/repo/pymoo/problems/single/knapsack.py: Knapsack, MultiObjectiveKnapsack", "/repo/pymoo/core/problem.py: _format_dict"]}
{"id": "C90", "title": "Decision making picks the solution its method describes", "statement": "PseudoWeights(weights).do(F) on mutually non-dominated objective vectors in which no objective is constant computes, for every solution, pseudo weights that are non-negative and sum to one, and returns the first solution whose weights have the least L1 distance to the given ones; the answer does not depend on the units of the objectives. HighTradeoffPoints on at least three distinct mutually non-dominated solutions computes a positive finite trade-off for each of them - the least ratio of sacrifice to gain against its neighbours - and the outliers it returns hold finite values above the average plus one standard deviation, contain a largest value and every value two deviations above the average, and are one position or at most a quarter of all. Exceptions, pinned down: with a constant objective PseudoWeights always answers 0; a solution that is worst in every objective is always returned; HighTradeoffPoints raises for one solution and for two that are more than 1/8 apart, and ignores epsilon; CompromiseProgramming raises on every non-empty set.", "quantifier": "all finite sets of real objective vectors, all weights, ideal and nadir points, all neighbour queries that return what scipy promises", "why_tests_cant": "The index returned depends on all objective vectors together, on ties and on divisions by zero; a test looks at one set.", "anchors": ["pymoo/mcdm/pseudo_weights.py:PseudoWeights", "pymoo/mcdm/high_tradeoff.py:HighTradeoffPoints", "pymoo/mcdm/compromise_programming.py:CompromiseProgramming", "pymoo/core/decision_making.py:find_outliers_upper_tail", "pymoo/core/decision_making.py:NeighborFinder"]}
{"id": "C91", "title": "GDE3 keeps what nobody beats", "statement": "In every generation of GDE3 (all crowding variants) each trial vector competes with the parent in whose slot it was built: the loser of a constrained-domination duel is dropped, both stay otherwise; it raises exactly when there are fewer offspring than parents. The next population has exactly pop_size members, all taken from parents and offspring. A feasible solution beaten by nobody in the generation is lost only if the whole new population is feasible and unbeaten; over any number of generations the least violation ever seen stays in the population, and as long as the unbeaten solutions fit into it, every feasible solution ever seen is in the population or beaten by a member (when they do not fit a solution may be accepted that one dropped before beats). Trial vectors are inside the bounds if the parents are, take every masked-out value from their target, at least one from the donor, and the repair leaves in-bounds donor values alone.", "quantifier": "all populations, offspring, numbers of objectives, violations, crowding metrics, random numbers, histories", "why_tests_cant": "The guarantee is about every history of generations and every tie; a test runs a few seeds.", "anchors": ["pymoo/algorithms/moo/gde3.py:GDE3._advance", "pymoo/algorithms/moo/nsde.py:VariantDE._do", "pymoo/util/dominator.py:get_relation"]}
{"id": "C92", "title": "BRKGA and G3PCX never lose their best", "statement": "BRKGA, one objective, no duplicate elimination: in every generation the elites are exactly n_elites (or all) best solutions of everything evaluated so far, feasible before infeasible, then less violation, then smaller objective; with duplicate elimination every solution ever seen is linked by a chain of (almost) equal objective values to one that does not beat the first elite - which does not protect a feasible solution from an infeasible elite with the same objective value. Several objectives: the elites are exactly the solutions non-dominated among everything evaluated so far (constraints are ignored, so all feasible ones can be lost; the population has no size bound). Mating pairs an elite with a non-elite (an elite if there are no others) and raises exactly if there is no elite. G3PCX: after every loop the first member of the population, reported as the optimum, is beaten by nothing evaluated so far; the population keeps its size and holds only evaluated solutions, each evaluation at most once; an iteration evaluates nothing if n_offsprings > pop_size.", "quantifier": "all initial populations, offspring, random choices, violations, n_elites, family sizes, numbers of generations", "why_tests_cant": "It concerns every history and every tie between violations and objectives; tests follow a few seeds.", "anchors": ["pymoo/algorithms/soo/nonconvex/brkga.py:EliteSurvival._do", "pymoo/algorithms/soo/nonconvex/brkga.py:EliteBiasedSelection._do", "pymoo/algorithms/soo/nonconvex/brkga.py:BRKGA._advance", "pymoo/algorithms/soo/nonconvex/g3pcx.py:G3PCX._next", "pymoo/core/replacement.py:is_better"]}
{"id": "C93", "title": "Multi-objective particle swarms (MOPSO-CD, CMOPSO)", "statement": "In every run of MOPSO-CD the reported optimum is a non-empty set of at most archive_size evaluated solutions, none dominating another and none dominated by a particle of this or the previous iteration; as long as it has always been smaller than archive_size, all solutions are feasible and equal variables have equal objectives, it represents every non-dominated solution evaluated so far. A particle's personal best is not dominated by any position it visited; leaders come from the archive and are the less crowded of two; velocities respect the maximal velocity and positions the bounds. Reductions by crowding tournaments keep different solutions and drop the most crowded ones first (fewer than the tournament size). CMOPSO's elites are at most pop_size different evaluated solutions, none better than another, unbeaten by the current particles, and feasible as soon as a feasible solution was found. Exceptions: MOPSO-CD ignores constraints when updating the archive, may list a solution twice, cuts a full archive at random to 100 members, and can replace reported solutions by dominated ones once the archive is full.", "quantifier": "all problems, swarms, histories of particles and random choices", "why_tests_cant": "history property over all random choices", "anchors": ["pymoo/algorithms/moo/mopso_cd.py: MOPSO_CD", "pymoo/algorithms/moo/cmopso.py: CMOPSO, CrowdingDistanceTournamentSurvival, cmopso_equation", "pymoo/core/algorithm.py: advance", "pymoo/util/archive.py"]}
{"id": "C94", "title": "EPPSO and NRBO never lose the best solution; local bests follow the topology", "statement": "Over any run of EPPSO (any topology) and of NRBO the reported optimum is exactly one evaluated solution and no position evaluated so far beats it (feasibility first, then violation, then objective). In every iteration of EPPSO the local best of a particle stays or is replaced by a strictly better personal best of a particle it hears from, and afterwards none of those beats it; with the star topology it is, from the first iteration on, a solution nothing evaluated so far beats, while with the ring topology particle k hears exactly from k-1, k and k+1 modulo N and need not know the best one. Particles stay in the box and their velocity is the way they went and within V_max times the range. At the start every particle is its own local best, so that with zero initial velocity the first generation evaluates the initial positions a second time. NRBO's population stays in the box whatever its search rule computes, its initial population is the sampled one sorted from best to worst, and its step factor is in [-1, 1] for max_iteration iterations and below -1 afterwards.", "quantifier": "all initial populations, all offspring of all generations, all random numbers, any neighbourhood lists, objective and violation values without NaN, deterministic problems", "why_tests_cant": "a run exercises one random sequence; the guarantees are over the whole history of a run and over all topologies", "anchors": ["pymoo/algorithms/soo/nonconvex/pso_ep.py:EPPSO", "pymoo/algorithms/soo/nonconvex/pso_ep.py:get_neighbors", "pymoo/algorithms/soo/nonconvex/pso_ep.py:Swarm", "pymoo/algorithms/soo/nonconvex/nrbo.py:NRBO"]}
{"id": "C95", "title": "AGE-MOEA: survivors, corner solutions and optimum", "statement": "One survival of AGE-MOEA keeps exactly n different solutions, the better non-dominated fronts first and all non-dominated solutions if there is room; with constraints all feasible solutions come before any infeasible one and infeasible ones with less violation first. When the first front is the one that is cut, those with the larger score survive and the corner solutions all survive (as long as they are not more than the places); the corners are as many different solutions as objectives, the i-th the one closest to the i-th axis among those not taken for an earlier axis (all solutions if there are not more than objectives), and the other scores are greedy: each time the solution with the largest sum of its two smallest distances to those already chosen, so that with at least two corners scores do not increase along the picks; with fewer solutions than objectives all scores are 0. The exponent p is always in (0.1, 20]. After each survival the reported optimum is a non-empty set of survivors: exactly the surviving feasible solutions dominated by no feasible solution of the merged population, or one solution with the least violation if none is feasible. Exception pinned down: when a later front is cut, all its members have score 0 and who survives depends only on the positions of the fronts' members and not on any objective value.", "quantifier": "all populations, objective and violation values without NaN, survivor numbers, sorters meeting their contract, distance matrices", "why_tests_cant": "Which front is cut, ties and degenerate fronts depend on the values; the guarantee is over all populations.", "anchors": ["pymoo/algorithms/moo/age.py: AGEMOEASurvival._do, survival_score, find_corner_solutions, AGEMOEA._set_optimum", "pymoo/algorithms/moo/age2.py: AGEMOEA2Survival, find_zero"]}
{"id": "C96", "title": "What NSGA-II reports as optimum", "statement": "After every generation NSGA-II reports a non-empty subset of its population: exactly the members that are feasible and dominated by no feasible solution of the merged population, or, if none is feasible, one solution with the least violation. Over a whole run with constraint handling the report contains only feasible solutions once one has been evaluated, is a solution of least violation of all evaluated ones before, and is exactly the set of non-dominated feasible solutions of everything evaluated as long as the unbeaten feasible solutions always fitted into the population. Exception pinned down: if they did not fit, the report can contain a solution dominated by one evaluated earlier.", "quantifier": "all populations, offspring sequences, values without NaN, population sizes, sorters meeting their contract", "why_tests_cant": "Whether a better solution was evaluated earlier and lost depends on the whole history of the run.", "anchors": ["pymoo/algorithms/moo/nsga2.py: NSGA2._set_optimum", "pymoo/operators/survival/rank_and_crowding/classes.py: RankAndCrowding._do", "pymoo/core/survival.py: Survival.do"]}
{"id": "C97", "title": "R-NSGA-II: preference ranking, epsilon clearing, survivors and optimum", "statement": "The survival of R-NSGA-II keeps exactly n different solutions and drops nobody in favour of a solution of a later front; with constraints all feasible solutions come before any infeasible one, infeasible ones with less violation first. Within a front a solution's rank is at least the number of members strictly closer to some reference point, every reference point has a member of rank 0 than which none is closer, and at most (k+1)*n_ref members have rank <= k. In a front that does not fit, a set of pairwise epsilon-distinct solutions keeps its rank, every other one is closer than epsilon to a kept one of no worse rank and its rank is increased by half the front's size; survivors have the smaller values, and if the places left are at least the number of reference points then for each reference point a closest solution of the front, or one closer than epsilon to it, survives. The reported optimum is as for NSGA-II. The preference distance is a symmetric non-negative function, zero only between equal points, and with default weights the Euclidean distance of normalised points; ideal and nadir are the extremes of everything evaluated (ever), of the last first front with at least two members (front), or 0 and 1 (no). Exceptions pinned down: a near-duplicate can survive although a solution that is nobody's near-duplicate is dropped; with extreme_points_as_reference_points the reference points of all generations accumulate.", "quantifier": "all populations, objective values without NaN, reference points (at least one), distance matrices, epsilon, numbers of survivors, sorters meeting their contract", "why_tests_cant": "Which front is cut, how ties and clusters fall depends on the values; the guarantee is over all populations and generations.", "anchors": ["pymoo/algorithms/moo/rnsga2.py: RankAndModifiedCrowdingSurvival._do, calc_norm_pref_distance, RNSGA2"]}
{"id": "C98", "title": "R-NSGA-III: directions around the reference points, survivors, reported optimum", "statement": "For any reference points and shrink factor mu, R-NSGA-III uses exactly as many reference directions as its population has members (n_points * n_aspiration + n_obj), each of them non-negative with sum 1, the unit vectors among them; the directions of a reference point are the aspiration directions shrunk by mu around the point where its ray from the ideal point meets the plane (exactly, as long as none leaves the positive orthant). The survival keeps exactly n solutions: whole fronts and of the cut front a selection that fills the niches as in NSGA-III; feasible solutions first, then by violation. Ideal and worst point are the extremes of everything evaluated and of the reference points. The survival's optimum consists of non-dominated solutions. Exceptions pinned down: survival.opt can be empty (no fallback as in NSGA-III) and the algorithm then keeps reporting what it reported before, possibly nothing or a solution dominated by a member of the population; without a usable hyperplane the nadir point is the worst of the whole population instead of the first front's, because two arguments are swapped.", "quantifier": "all reference points, aspiration directions summing to 1, mu, populations, distances to directions without NaN, survivor numbers, random choices", "why_tests_cant": "Clipping, empty optimum and degenerate hyperplanes only appear for particular populations and reference points; the count and simplex property must hold for all.", "anchors": ["pymoo/algorithms/moo/rnsga3.py: AspirationPointSurvival._do, get_ref_dirs_from_points, line_plane_intersection, RNSGA3.__init__", "pymoo/algorithms/moo/nsga3.py: NSGA3._set_optimum"]}
{"id": "C99", "title": "Dynamic NSGA-II reacts to changes it samples, and only to those", "statement": "DNSGA2: in every generation ceil(n * perc_detect_change) individuals (at least one, at most all, for 0 < perc <= 1) are drawn and evaluated again. If none of the drawn ones has changed - in particular on a static problem - no change is ever detected (eps >= 0; infinite and NaN values included), so that on a static problem the run is exactly an NSGA-II run. In exact arithmetic and with eps = 0 a change of any objective of a drawn individual is detected; with eps > 0 one is missed if all squared differences are at most eps. After a detection the whole population is re-created: the individuals picked with probability perc_diversity get new variables (version A: sampled, B: mutated), the others keep theirs, all are evaluated with the current problem, and all values in the new population are current. The next population has pop_size members out of parents and offspring, the reported optimum is exactly the survivors nobody among them dominates, and the evaluation counter grows by the draws, the re-evaluated population and the offspring. Pinned exceptions: a change at individuals that were not drawn is missed and the population then reports outdated objective values; a drawn individual with an infinite objective (before and after) or a NaN hides every change; version B ignores the seed; an unknown version raises only when a change is detected.", "quantifier": "all problems and ways they change over time, populations, draws, thresholds, operators, summation orders, numbers of generations", "why_tests_cant": "whether a change is noticed depends on the random draw and on the history of the problem; the static equivalence must hold for every run", "anchors": ["pymoo/algorithms/moo/dnsga2.py: DNSGA2", "pymoo/core/evaluator.py: Evaluator.eval", "pymoo/core/mutation.py: Mutation.do"]}
{"id": "C100", "title": "Pruning crowding metrics: mnn, 2nn and pcd", "statement": "The crowding values 'mnn', '2nn' and 'pcd' (selected by label for rank-and-crowding survival) are those of dropping points one after the other: each dropped point had the least value among the points then remaining and keeps it, no point still present at that moment ends with a smaller value, and a point never dropped has its value among the points never dropped. min(n_remove - 1, N - m - 1) points are dropped this way. The value among a set of points is infinite for the (first) extreme points of the objectives; otherwise for mnn/2nn the product of the m (2) smallest squared distances in the space scaled to [0,1], and for pcd the sum over objectives of the relative gaps to the neighbours, constant objectives contributing nothing. No more points than objectives: all infinite (mnn, 2nn). Selecting the points of largest value keeps one of the dropped points only in case of ties. With a constant objective mnn and 2nn yield NaN instead: for all non-extreme points if fewer than m (2) points are dropped, otherwise for the first m (2) of them. Flagged duplicates get zero.", "quantifier": "all finite objective matrices, all n_remove, every sort meeting its contract (stable for pcd), exact arithmetic", "why_tests_cant": "the result of the greedy elimination is a statement about every set of points and every sequence of removals; monotonicity of the metric under removal is what makes the retained values consistent", "anchors": ["pymoo/functions/standard/mnn.py: calc_mnn_base", "pymoo/functions/standard/pruning_cd.py: calc_pcd", "pymoo/operators/survival/rank_and_crowding/metrics.py: FuncionalDiversityMNN, FunctionalDiversity"]}
{"id": "C101", "title": "The default terminations stop only for stagnation or an exhausted budget", "statement": "A run without a termination argument (DefaultSingleObjectiveTermination, DefaultMultiObjectiveTermination) stops at an update only if (a) the generation or evaluation budget is reached, or (b) for at least the last `period` observations nothing in the design space moved away from one earlier observation by more than xtol, or (c) for at least the last `period` observations nothing was feasible and the least constraint violation fell by no more than cvtol relative to one earlier observation, or (d) for at least the last `period` observations the best feasible objective value (ideal, nadir and front, for several objectives) improved by no more than ftol relative to one earlier observation. Hence it never stops within the first `period` updates before the budget is used, never blames stagnating objectives when nothing feasible exists, and the budget always stops it. Conversely, if variables, or the violation of an infeasible optimum, or the best feasible values stay put, it stops after at most period + n_skip + 1 further updates. UntilFeasibleTermination is complete exactly when the optimum has zero violation, as long as the violation never exceeds its first value; if it does, the update raises.", "quantifier": "all sequences of observations of any length, all tolerances, periods, skips and budgets, any metric on the variables and any indicator between fronts", "why_tests_cant": "The decision depends on the whole history of a run of unbounded length; tests execute a few runs.", "anchors": ["pymoo/termination/default.py: DefaultTermination", "pymoo/termination/ftol.py: SingleObjectiveSpaceTermination, MultiObjectiveSpaceTermination, calc_delta_norm", "pymoo/termination/xtol.py: DesignSpaceTermination", "pymoo/termination/cv.py: ConstraintViolationTermination, UntilFeasibleTermination", "pymoo/termination/delta.py: DeltaToleranceTermination", "pymoo/termination/robust.py: RobustTermination"]}
{"id": "C102", "title": "R-metric and spacing indicators", "statement": "RMetric.do computes R-IGD (and R-HV for up to three objectives) from exactly these sets: the points of F not Pareto-dominated by a point of `others`, grouped by their nearest reference point (the first one on ties), each group trimmed to the open box of side delta around its representative (a member of least achievement scalarisation) and translated as a whole so that the representative lands on the line through the reference point with its scalarisation unchanged; against the points of the Pareto front in boxes of fixed side 0.2 (not delta) around the front's representatives. It reports None exactly when every point of F is dominated by `others`. The front itself scores zero if its representative lies on the line (one reference point, delta 0.2), not in general. SpacingIndicator is the standard deviation of the city-block distances to the nearest other point: zero exactly for evenly spaced points, independent of the order of the points; one point is an error, no point scores 0.", "quantifier": "all point sets, reference points, weights, delta, Pareto fronts and other algorithms' results of any size and dimension", "why_tests_cant": "Ties, dominance patterns and group structure vary over unboundedly many configurations; tests check a few stored values.", "anchors": ["pymoo/indicators/rmetric.py: RMetric", "pymoo/indicators/spacing.py: SpacingIndicator", "pymoo/core/indicator.py: Indicator.do"]}
{"id": "C103", "title": "Crowding entropy", "statement": "With crowding function \"ce\", every point flagged as a duplicate gets 0 and every other point gets the sum over the objectives of: 0 if the objective is constant among the unique points; otherwise +inf for the first of the least and the last of the greatest values; otherwise 0 if another unique point shares the value; otherwise the distance between the next lower and the next higher value, relative to the objective's range, times the entropy in bits of the split of that interval by the point. Hence it is +inf or between 0 and the number of objectives and never NaN, although the computation passes through NaN and log2(0). Up to two points all get +inf.", "quantifier": "all objective matrices with any number of points and objectives, ties included, and any stable sort", "why_tests_cant": "Ties, constant objectives and duplicates interact through NaN handling in unboundedly many patterns.", "anchors": ["pymoo/operators/survival/rank_and_crowding/metrics.py: calc_crowding_entropy, FunctionalDiversity, get_crowding_function"]}
{"id": "C104", "title": "Omni-Optimizer: loose dominance, two-space crowding, survival, neighbour mating", "statement": "LooseDominator's matrix is 1 (-1) exactly where the row Pareto-dominates the column (the column the row) and is better by more than delta times the range of the objective in some objective; the relation is a strict order inside Pareto dominance and equals it for delta = 0; sorting with it terminates, its first front holds every Pareto-non-dominated solution and a dominated solution in it exceeds its dominators by at most the margin (so the reported optimum can hold dominated solutions). In the objective space the crowding of the best solution of each objective is 10 and of every other solution the mean of its scaled neighbour gaps, at most 1; in the variable space all values lie in [0, 2]; combined, the best solutions keep 10 and all others get the larger or smaller of the two values by thresholds that are not the averages of the front, at most 2; disabling both spaces raises. Survival keeps the requested number of different solutions ordered by rank and then crowding, records rank and crowding, and with objective-space crowding and at least max(2, n_obj) survivors a best feasible solution of every objective survives (it can be lost without it). Mating selection pairs each solution at most once per pass with a nearest unused solution in variables scaled to [0, 1] and delivers the requested number of pairs, but never ends for a population of one. The optimum is the set of rank 0, or the least violated solution if nothing is feasible.", "quantifier": "all objective and variable matrices, constraints, delta, options, survivor numbers, tie breaks and random permutations", "why_tests_cant": "the relation, the crowding and the guarantee that no extreme solution is lost concern all populations, ties and random orders", "anchors": ["pymoo/algorithms/moo/omni.py:LooseDominator", "pymoo/algorithms/moo/omni.py:calc_crowding_distance_in_space", "pymoo/algorithms/moo/omni.py:calc_omni_crowding_distance", "pymoo/algorithms/moo/omni.py:OmniOptimizerSurvival", "pymoo/algorithms/moo/omni.py:NeighborBasedTournamentSelection", "pymoo/util/nds/fast_non_dominated_sort.py:fast_non_dominated_sort"]}
{"id": "C105", "title": "minimize works on copies; options, set-up algorithms and history entries", "statement": "minimize() with its default copies leaves the user's algorithm and termination objects exactly as they were - every object reachable from them, whatever the concrete algorithm, problem, callback do - provided they share nothing with the problem and the options; more generally it changes only objects reachable from the problem, from the options and from whatever it was told not to copy. deepcopy yields an independent isomorphic copy (sharing and cycles preserved, attributes hidden by __getstate__ removed or None) and fails exactly when something reachable cannot be copied. Options are stored by reference under their names, never copied, so a callback keeps its state across runs; verbose only reaches a display made by setup; random_state is always new. If the algorithm was set up before, the problem, termination and options of the call have no effect. With save_history, the history gets one entry per completed iteration, each an isomorphic copy of the algorithm at that moment without history, callback and display, and no later step changes anything in it; saving leaves the algorithm's attributes as they were, and fails exactly if the algorithm holds something uncopyable (then history, callback and display are left None). Wrapping (Meta) copies the wrapped object unless it is already a wrapper, in which case the same object is reused and its reference to the original is overwritten.", "quantifier": "all heaps without dangling references (cyclic ones included), all algorithms, problems, terminations and options, all executions of arbitrary code that only names objects it was given", "why_tests_cant": "non-interference over all object graphs and all user-supplied code", "anchors": ["pymoo/optimize.py:minimize", "pymoo/core/algorithm.py:Algorithm.setup", "pymoo/core/algorithm.py:Algorithm._post_advance", "pymoo/core/algorithm.py:MetaAlgorithm", "pymoo/core/meta.py:Meta", "pymoo/core/problem.py:Problem.__getstate__"]}
{"id": "C106", "title": "Callback protocol, recorders and initialisation from given individuals", "statement": "A callback is initialised exactly once in its life, before its first notification, and notified then updated once per completed iteration; callbacks inside a CallbackCollection, at any depth, are only updated (once per call, in order), never initialised or notified, so a Recorder in a collection records nothing. A Recorder with nth_evals = k records a call exactly if its evaluation count falls into a later block of k evaluations than every earlier call (without nth_evals: always), so a recorder reused for a second run records nothing until that run passes the blocks of the first; it raises only for k = 0. The single-objective entry holds the least violation, the least feasible objective (inf if none) and its distance to the known optimum. Initialization keeps the given individuals (in order, minus masked duplicates), does not touch evaluated ones, and writes the repaired variables of all others into the very individual objects the user passed; nothing else changes and n_samples is ignored for a given population or array.", "quantifier": "all trees of callbacks and numbers of calls; all sequences of evaluation counts, monotone or not; all optima; all repairs, duplicate masks, populations, stores", "why_tests_cant": "all histories of calls and all populations", "anchors": ["pymoo/core/callback.py:Callback", "pymoo/core/callback.py:CallbackCollection", "pymoo/core/recorder.py:Recorder", "pymoo/core/recorder.py:DefaultSingleObjectiveRecorder", "pymoo/core/initialization.py:Initialization", "pymoo/core/repair.py:Repair"]}
{"id": "C107", "title": "PINSGA2: preference-based dominance", "statement": "Without a fitted value function VFDominator is ordinary Pareto dominance, for every F, _F and epsilon, and the fronts are the Pareto fronts. With a value function and v2, exactly the entries (row worth less than v2, column worth more than v2) change: they become -1, or 0 if the row Pareto-dominates the column. If no Pareto-better point is worth less, the sort terminates and its fronts are the layers of 'Pareto-dominates, or is preferred and comes later in the array'; when the points worth less come first these are the layers of 'Pareto-dominates or is preferred'. In general the fronts depend on the order of the rows (a preferred point listed first does not push the other back), and for a value function that is not monotone the sort can run for ever.", "quantifier": "every objective matrix without NaN, every value function, every v2, every order of the rows", "why_tests_cant": "the fronts are only wrong for particular row orders and the endless loop needs a cyclic relation among at least four points; a test sees single populations", "anchors": ["pymoo/util/vf_dominator.py:VFDominator.calc_domination_matrix", "pymoo/algorithms/moo/pinsga2.py:PINSGA2", "pymoo/util/nds/fast_non_dominated_sort.py:fast_non_dominated_sort"]}
{"id": "C108", "title": "PINSGA2: ranking by the decision maker and the interaction step", "statement": "Pairwise ranking: whatever is answered, every point gets exactly one rank and the ranks are 1..k without gaps; if the answers follow a strict weak order, smaller rank means better and equal rank means equivalent; with valid answers at most n(n-1)/2 questions are asked. Absolute ranking takes the first non-empty answer with all numbers in 1..n, even if it has the wrong length. The refitting loop always ends; with gap-free ranks no index fails and it ends with a fitted function or without a preference. v2 is the value of the row at position rank[1]-1, which is the second best if the second row is; in general it need not be (ranks 3,1,2: the worst), and removing 'the second best' after a failed fit can swap or merge the ranks of the others. After each iteration the population is the one the survival left, also after a reset, the history has grown by the rows of rank 0, at most eta rows of rank 0 were shown; the preference changes only when n_gen is a multiple of tau and is then replaced by a new one or removed. The 'no preference' test never fires.", "quantifier": "every decision maker (also inconsistent or time-dependent), every set of points, every fitting routine, every state and population", "why_tests_cant": "it ranges over all answer histories of a decision maker and all outcomes of the fits", "anchors": ["pymoo/algorithms/moo/pinsga2.py:PINSGA2._get_pairwise_ranks", "pymoo/algorithms/moo/pinsga2.py:PINSGA2._get_ranks", "pymoo/algorithms/moo/pinsga2.py:PINSGA2._advance", "pymoo/algorithms/moo/pinsga2.py:PINSGA2._reset_dm_preference"]}
{"id": "C109", "title": "PINSGA2: what an accepted value function guarantees", "statement": "If a linear fit is accepted, the weights are non-negative with sum 1, points with different ranks (all ranks different) differ by at least epsilon in the order of the ranks, with ties the order is still respected as long as (n-2) delta <= 1, tied points differ by at most (n-1) delta epsilon, and the function never values a Pareto-better point less. If a polynomial fit is accepted, the function is the product of M affine factors with non-negative weights summing to 1, each non-negative at every rated point; the ranks are respected in the same way; a point at least as good as a rated one is worth at least as much. A point dominated by all rated points can be worth more than all of them (polynomial), and with more than ten ties the ranking can be contradicted.", "quantifier": "all rated points, ranks, weights, epsilon, delta >= 0, any order of ties in the sort", "why_tests_cant": "universally quantified over real points and parameters, including points never rated", "anchors": ["pymoo/util/value_functions.py:linear_vf", "pymoo/util/value_functions.py:poly_vf", "pymoo/util/value_functions.py:_calc_S", "pymoo/util/value_functions.py:_ineq_constr_1D_linear", "pymoo/util/value_functions.py:_ineq_constr_1D_poly", "pymoo/util/value_functions.py:_validate_vf", "pymoo/util/value_functions.py:_sort_P"]}
{"id": "C110", "title": "Hypervolume and epsilon indicators", "statement": "HV never prefers a worse set: if every point of D is nowhere better than some point of E, then HV(D) <= HV(E), whatever the reference point, front, ideal and nadir given and whether or not values are normalised; it is strictly greater when E has a point below the reference point that no point of D is as good as. Order, duplicates, dominated points and points not strictly below the reference point do not matter. The value is the volume of the union of the boxes between the points and the reference point (inclusion-exclusion), divided by the volume of the box between ideal and nadir when zero_to_one is set (objectives where they agree count 1). Without ref_point and pf the constructor fails; with pf only, the reference point is the nadir of pf, so a front of extreme points gets 0; integer objective arrays are truncated by the normalisation. Epsilon is the least amount (in units of the range of the front if normalising) by which the points must be improved to cover the front, not positive iff they cover it; EpsilonMultiplicative the least factor, and it can never be evaluated with zero_to_one. ApproximateHypervolume's values after any sequence of add and delete are those of the points that are in.", "quantifier": "all numbers of objectives, all finite point sets, reference points, fronts and options, all call sequences", "why_tests_cant": "Pareto compliance is a statement about all pairs of sets in every dimension", "anchors": ["pymoo/indicators/hv/__init__.py:Hypervolume", "pymoo/indicators/hv/approximate.py:ApproximateHypervolume", "pymoo/indicators/epsilon.py:Epsilon", "pymoo/core/indicator.py:Indicator.do"]}
{"id": "C111", "title": "The reported Pareto fronts of the constrained DTLZ problems", "statement": "For the constrained DTLZ problems, take a feasible solution to be a point of the box [0,1]^n_var with every constraint at most 0. (1) For C1DTLZ1, C1DTLZ3 (radius at least 1, which the defaults 9, 12.5 and 15 satisfy), C2DTLZ2 (any radius), DC2DTLZ1 and DC2DTLZ3, and any reference directions, every point of problem.pareto_front(ref_dirs) is the objective vector of a feasible solution and is dominated by no feasible solution, and every feasible solution is weakly dominated by a feasible point of the same surface (for C2DTLZ2: by one the front would report for some direction). (2) The same holds for C3DTLZ4 when n_var >= n_obj + 3; in general its reported points are never dominated by a feasible solution, and one is the value of a feasible solution exactly when its norm is at most 1 + k/4, k = n_var + 1 - n_obj, so with fewer than four distance variables the reported corner is not reachable. (3) Exceptions: with a radius below 1 no reported point of C1DTLZ3 is feasible; C3DTLZ1 reports the front of DTLZ1, no point of which is feasible with two or more objectives; for DC1DTLZ1/DC1DTLZ3 a reported point is the value of a feasible solution exactly when a cosine of its last coordinate is at least 0.95, and for DC3DTLZ1/DC3DTLZ3 exactly when its direction variables all satisfy cos(5 pi x) >= 1/2, and for each of the four there are directions whose reported point is not feasible.", "quantifier": "every number of variables and objectives, every list of reference directions, every radius and exponent, every point of the decision space", "why_tests_cant": "Optimality quantifies over the continuum of feasible solutions and over all directions; tests can only compare finitely many sampled points.", "anchors": ["pymoo/problems/many/cdtlz.py: C1DTLZ1, C1DTLZ3, C2DTLZ2, C3DTLZ1, C3DTLZ4, constraint_*", "pymoo/problems/many/dcdtlz.py: DC1DTLZ1, DC1DTLZ3, DC2DTLZ1, DC2DTLZ3, DC3DTLZ1, DC3DTLZ3"]}
{"id": "C112", "title": "KGB-DMOEA: archive, knowledge reconstruction and the population after a change", "statement": "With 1 <= c_size <= pop_size and optima within the bounds, every generation of every KGB-DMOEA run succeeds: the i-th optimal solution of time t is archived under a key of its own (replacing nothing archived at another time); without a detected change the population is unchanged; after one the archive is condensed to at most c_size clusters by repeatedly merging the two with the closest centroids, without losing or duplicating an archived solution and with every centroid the mean of its cluster, solutions are useful exactly if they are in a cluster whose centroid is dominated by no centroid, and the parents are exactly pop_size solutions within the bounds, evaluated with the objectives of now, among them all centroids, random ones only if the others are not enough; the time counter is the number of detected changes. Exceptions, pinned down: with pop_size < c_size every detected change raises; with c_size = 0 the condensation fails; random solutions are drawn from [0,1) and clipped, so a variable with bounds below 0 (above 1) always gets its upper (lower) bound; all objects created without ps share one archive for ever, while objects with their own ps and deep copies (minimize) are only changed by their own use.", "quantifier": "all archives, optima, populations, objective functions, rankings, random draws, classifier answers, numbers of clusters and individuals, all sequences of generations and of object creations, copies and uses", "why_tests_cant": "tests run a few seeds on one box ([0,1]^n) with one object per process; the sharing of the default argument and the clipping only show for other histories and bounds", "anchors": ["pymoo/algorithms/moo/kgb.py:KGB.__init__", "pymoo/algorithms/moo/kgb.py:KGB.knowledge_reconstruction_examination", "pymoo/algorithms/moo/kgb.py:KGB.add_to_ps", "pymoo/algorithms/moo/kgb.py:KGB.random_strategy", "pymoo/algorithms/moo/kgb.py:KGB._advance"]}
{"id": "C113", "title": "Dynamic test problems: clock, freshness of the reported front, and the DF fronts at every time", "statement": "The time of a dynamic problem is the last value assigned to it, or otherwise the number of whole periods taut in the elapsed generations divided by nt; under TimeSimulation it changes exactly every taut generations. As long as the time is moved by tic only and the number of points asked for stays the same, every front reported by pareto_front() is the one of the current time; exceptions, pinned down: assigning `time` keeps the old cached front, and once cached, another number of points is ignored. At every time t, for every number of variables: the Pareto front of DF1-DF3, DF5, DF6, DF8 and (for t > -1) DF7 is exactly the curve the code reports, every reported point is on it, and that of DF10, DF11, DF14 is exactly the reported surface; for DF9 and DF13 every point of the reported parametrisation is attained and the front consists of exactly those no other point of it dominates; for DF4 the front is the reported curve up to x0 = 2, so for 0 < t < 1 reported points exist that no solution attains; DF12's objectives of one solution depend on the other solutions of the batch.", "quantifier": "all real times, all numbers of variables, all solutions in the box, all numbers of reported points, all sequences of tics, assignments and front requests", "why_tests_cant": "the fronts are continua attained by a measure-zero set of solutions at a continuum of times; a test samples a few; the stale-cache history needs a particular order of calls", "anchors": ["pymoo/problems/dyn.py:DynamicTestProblem", "pymoo/problems/dyn.py:TimeSimulation", "pymoo/problems/dynamic/df.py:DF1", "pymoo/problems/dynamic/df.py:DF4", "pymoo/problems/dynamic/df.py:DF12", "pymoo/problems/dynamic/df.py:DF14", "pymoo/util/cache.py:Cache", "pymoo/core/problem.py:Problem.pareto_front"]}
{"id": "C114", "title": "Running metric and MIGD: what the recorded convergence values mean", "statement": "After every update with a current optimum, RunningMetric's three lists have one entry for each of the last `period` generations that had an optimum, and the changes of the ideal and nadir point end with 0. Every other entry is the greatest change, over the objectives, of the ideal (nadir) point between two successive kept generations relative to the current range. With indicator igd an entry is 0 exactly if every current optimum (as objective vector) was already among the optima of that generation (so the last is 0), and multiplying objectives by positive numbers and adding constants changes nothing as long as no objective is constant in the current generation (for the nadir point: in no kept one); with indicator hv a generation covering another never has the smaller value. Exceptions, pinned down: an objective constant in the current generation whose value the addition of 1e-16 changes makes every entry infinite, or NaN as soon as such an objective's ideal (nadir) did not move; if the addition has no effect, differences are divided by 1. MIGD records at every call the time and the IGD of the front of that time to the population evaluated at that time (or, with reevaluate=False, with the stored objectives) and its value is their mean; NaN before the first call; on constrained problems every call raises.", "quantifier": "all sequences of generations (with and without optimum), all finite objective values, window lengths, numbers of objectives, roundings of the 1e-16 step, positive affine rescalings; all interleavings of clock steps and callback calls", "why_tests_cant": "the failure depends on the magnitude of a constant objective relative to 1e-16 and on which earlier generation it is compared to; tests only look at well-spread fronts", "anchors": ["pymoo/util/running_metric.py:RunningMetric.update", "pymoo/termination/ftol.py:calc_delta_norm", "pymoo/util/sliding_window.py:SlidingWindow", "pymoo/indicators/migd.py:MIGD"]}
{"id": "C115", "title": "Verbose output: what the printed table says", "statement": "Every row printed with verbose=True is exactly as long as the header and its border, and a row can always be formatted if the columns of floats are at least 7 wide. A non-negative integer is shown exactly if it has at most as many digits as the column is wide; otherwise its last digits are cut off (the shown number is the integer divided by a power of ten). A float of the standard range is right-aligned in its column and reads back as a number within half a unit of the last of width-3 decimals (0.00001 <= q < 10) or within half a unit of the (width-6)-th significant digit (otherwise); a negative float with a three-digit exponent loses the exponent's last digit (below -10^100 it is shown as more than -10^31, between -10^-100 and 0 as at most -10^-33). An algorithm constructed with an output object - its own or the default object shared by all instances - prints the header once, with the columns of its own problem, and then one row per generation with these columns, whatever other algorithms do with that object. Exceptions: an output already used and passed to setup()/minimize is not copied, so no header is printed and the rows have the columns of the first problem; setting an algorithm up again keeps the first display (no new header, old columns, the verbose flag is ignored). Values shown by the progress bar never decrease and are less than 0.01 below the greatest value so far. The columns shown by the single- and multi-objective outputs are those their problem calls for, with fitting names; with truncate=False nothing is cut off.", "quantifier": "all column widths, names and values; all sequences of constructing outputs and algorithms, set-ups and generations; all sequences of progress values", "why_tests_cant": "output text is not tested; loss of digits depends on sign and magnitude of the value, the state of shared default outputs on the whole history of runs in a process", "anchors": ["pymoo/util/display/column.py:format_text", "pymoo/util/display/column.py:number_to_text", "pymoo/util/display/output.py:Output.header", "pymoo/util/display/output.py:Output.text", "pymoo/util/display/display.py:Display.update", "pymoo/util/display/progress.py:ProgressBar.set", "pymoo/util/display/single.py:SingleObjectiveOutput.initialize", "pymoo/util/display/multi.py:MultiObjectiveOutput.initialize", "pymoo/core/algorithm.py:Algorithm.setup"]}
{"id": "C116", "title": "WFG1-WFG9: values, fronts and the sets and fronts the code reports", "statement": "In exact arithmetic, for all accepted parameters (n_obj >= 2, k >= 4 divisible by n_obj - 1, n_var > k, n_var - k even for WFG2 and WFG3): every point inside the bounds has n_obj objective values, the m-th (from 1) between 0 and 2m + 1. Every point the code takes as Pareto-optimal (_positional_to_optimal of any k numbers in [0, 1]) lies inside the bounds and no admissible point dominates it, for all problems but WFG2. The Pareto front of WFG4 to WFG9 is exactly the part of the ellipsoid with semi-axes 2, 4, ..., 2 n_obj with no negative coordinate; that of WFG1 exactly its convex/wave surface. pareto_set(n) returns n points on the front if n >= 2^k; with the default k and n = 500 it raises for n_obj >= 6. Every row of the front sampled by pareto_front is on the front whatever is drawn and whichever rows are kept, and the front of WFG9 computed from reference directions is on the front. WFG2's reported set contains points dominated by other reported points. The values of the solutions WFG3 reports as optimal are exactly a segment (degenerate), for any number of objectives.", "quantifier": "all accepted n_obj, n_var and k; all points inside the bounds; all position values, draws and reference directions", "why_tests_cant": "optimality of a reported point is a statement about all points of a continuous box of any dimension, behind transformations that are neither continuous nor convex; tests compare a few values with a reference implementation", "anchors": ["pymoo/problems/many/wfg.py:WFG", "pymoo/problems/many/wfg.py:WFG1", "pymoo/problems/many/wfg.py:WFG2", "pymoo/problems/many/wfg.py:WFG3", "pymoo/problems/many/wfg.py:WFG4", "pymoo/problems/many/wfg.py:WFG5", "pymoo/problems/many/wfg.py:WFG6", "pymoo/problems/many/wfg.py:WFG7", "pymoo/problems/many/wfg.py:WFG8", "pymoo/problems/many/wfg.py:WFG9", "pymoo/problems/many/wfg.py:_reduction_non_sep", "pymoo/problems/many/wfg.py:_shape_convex", "pymoo/problems/many/wfg.py:correct_to_01"]}
{"id": "C117", "title": "NicheGA: survivors, rounds, leaders and niches of the epsilon clearing", "statement": "The epsilon-clearing survival returns min(n_survive, n) different members of the population (n_max_each_iter not 0; with 0 it raises). The first survivor is the best of the population (constraint violation, then objective) and is marked iter = rank = niche = 1. In order, the survivors' (iter, rank) start with (1, 1) and each next one is the next rank of the same round or rank 1 of the next round; no rank exceeds n_max_each_iter. Two survivors of the same round are at least epsilon apart and the earlier is no worse. Without n_max_each_iter, once somebody of a later round was chosen, every individual was chosen in round r or before or is nearer than epsilon to a survivor of round r that is no worse. With return_all_opt the reported optimum is exactly the survivors of round one: a prefix of the population, ranks and niches 1, 2, ..., k, pairwise at least epsilon apart, the first no worse than every member. If no member carries a mark of an earlier generation, the niche of a survivor of a later round is that of the closest leader (the better of two equally close ones); in later generations of a run this fails, because individuals that were leaders before still count. Through any number of generations with any offspring no generation fails, the size is the population size (or all there is) and the first member is no worse than everything ever evaluated.", "quantifier": "all populations with any attributes left over, all distance matrices, epsilons, n_max_each_iter, n_survive, and all sequences of generations and offspring", "why_tests_cant": "clearing interleaves rounds, resets and attribute updates on shared individuals; which case occurs depends on the whole distance matrix, and the niche fault needs at least two generations with a former leader that is cleared", "anchors": ["pymoo/algorithms/soo/nonconvex/ga_niching.py:EpsilonClearingSurvival", "pymoo/algorithms/soo/nonconvex/ga_niching.py:NicheGA._set_optimum", "pymoo/util/clearing.py:EpsilonClearing", "pymoo/algorithms/soo/nonconvex/ga.py:FitnessSurvival", "pymoo/core/survival.py:Survival.do", "pymoo/algorithms/base/genetic.py:GeneticAlgorithm._advance"]}
{"id": "C118", "title": "Riesz energy reference directions: simplex, fixed edges, gradient and the points returned", "statement": "Started from points of the unit simplex (and additional fixed points whose coordinates sum to one) in at most 24 dimensions, the energy method (RieszEnergyReferenceDirectionFactory._solve) ends without an exception for every setting and returns points of the simplex, as many as it got; a point with a coordinate below 1e-16 stays where it is if edges are frozen; if all points are frozen the additional ones are returned as well (then the assignment of the caller fails). The analytic gradient is the derivative of the energy (the logarithm of the mean of 1 / distance^d over the pairs) in every coordinate of every point whose distances exceed the overflow threshold. The points returned are those reached by the step from the first visited configuration of least energy, where the configurations visited are the given points and after each the points moved by one step or, in a restart, the best points so far with new moments and half the learning rate. Hence the energy of what is returned was never looked at: with one iteration and default settings it can be larger than that of the given points.", "quantifier": "all point sets, additional points, dimensions up to 24, exponents, numbers of iterations and settings (real arithmetic)", "why_tests_cant": "whether the projection onto the simplex fails depends on Adam never moving all coordinates of a point below zero in one step, for every gradient history; which configuration is returned depends on the whole energy sequence", "anchors": ["pymoo/util/ref_dirs/energy.py:RieszEnergyReferenceDirectionFactory._step", "pymoo/util/ref_dirs/energy.py:RieszEnergyReferenceDirectionFactory._solve", "pymoo/util/ref_dirs/energy.py:calc_potential_energy_with_grad", "pymoo/util/ref_dirs/optimizer.py:Adam", "pymoo/util/ref_dirs/misc.py:project_onto_unit_simplex_recursive"]}
{"id": "C119", "title": "Parameter control: what is recorded for an offspring, and domains of evolved parameters", "statement": "In a mating with parameter control (ParameterControlMating) the offspring at position p = i * n + k, child i of mating k of n, was produced by a crossover with the k-th value of every controlled parameter, but mutated with and recorded under value p / o (o children per crossover). Exceptions pinned down: the record names the value which the crossover used, for all values, exactly where p / o = k; with two children per mating (n >= 1) only for the first and the last offspring, and for all offspring exactly if the crossover has one child (DE, EPPSO) or there is at most one mating. Random control gives every parameter an array of n values of its domain; evolutionary control fills in the missing values of the population in place and changes nothing else, selects the parents of values by tournaments nobody older wins, and returns n values of each domain; in every run all values attached to individuals are in the domain of their parameter, the mating never fails and every offspring carries a value for every parameter, and at least the requested number of offspring, less than o too many, is produced. Without control nothing is recorded. Pinned down: ParameterControlMating draws the parameters from a generator of its own, not from the random state it is given.", "quantifier": "all parameter sets, populations, draws, numbers of offspring and of children per mating, and histories of matings", "why_tests_cant": "the record of an offspring looks plausible wherever it is off by a mating; that no value ever leaves its domain is a statement about all histories and draws", "anchors": ["pymoo/operators/control.py:ParameterControl.advance", "pymoo/operators/control.py:RandomParameterControl", "pymoo/operators/control.py:EvolutionaryParameterControl._do", "pymoo/operators/control.py:age_binary_tournament", "pymoo/operators/control.py:ParameterControlMating._do", "pymoo/core/crossover.py:Crossover.do", "pymoo/util/__init__.py:default_random_state"]}
{"id": "C120", "title": "Complex step gradients: what they approximate, when they are exact, and what a caller must ask for", "statement": "For an output built from variables and constants by + - * /, exp, sin, cos, sqrt and log and defined at x, the estimate which ComplexNumberGradient reports comes arbitrarily close to the partial derivative as the step gets small, for every variable. For a polynomial of degree at most two in the variable it is the partial derivative whatever the step, for any polynomial the error is at most a constant times the square of the step. Exception pinned down: for an absolute value the estimate is 0 for every step. Evaluation of at least one point returns the values of the problem and, under 'd' and the name, for every point, output and variable the estimate for just that point, output and variable. Exception pinned down: it succeeds if and only if for every name the problem sets (not only for the ones asked for) the gradient is asked for: the objectives' gradient of a constrained problem alone is a KeyError.", "quantifier": "all expressions, points, steps, variables, and sets of requested names", "why_tests_cant": "a test compares gradients at a few points with a tolerance; that the estimate converges for every expression and point is a statement of analysis", "anchors": ["pymoo/gradient/grad_complex.py:calc_complex_gradient", "pymoo/gradient/grad_complex.py:ComplexNumberGradient.do", "pymoo/core/problem.py:Problem.do"]}
{"id": "C121", "title": "KKT proximity measure: termination, range, and what 0 means", "statement": "With exact arithmetic, the search for multipliers in KKTPM.calc ends for every solution after at most as many passes as there are objectives and constraints, with multipliers that are not negative. An infeasible solution is measured by 1 plus its constraint violation. A feasible one is measured by 0 if and only if it is a Karush-Kuhn-Tucker point of the augmented scalarization, and then it is critical for the problem itself (positive weights of the objectives and multipliers of active constraints balance the gradients) if the ideal point is better in all objectives; the measure is never negative, and at most 1 with up to seven constraints. Exceptions pinned down: with eight constraints a feasible solution can be measured above 1, i.e. worse than an infeasible one; it raises exactly if the problem has no inequality constraints (a name is used before assignment) or the rows of the system are degenerate; and each call lowers the array of the ideal point it is given (or the cached one of the problem) by utopian_eps, so that call k measures against another point than call 1.", "quantifier": "all problems with differentiable objectives and inequality constraints, solutions, ideal points, parameters, and sequences of calls", "why_tests_cant": "the one test compares with stored values of a few solutions; termination, the range and the equivalence with the optimality conditions are statements about all gradients", "anchors": ["pymoo/indicators/kktpm.py:KKTPM.calc", "pymoo/indicators/kktpm.py:solve", "pymoo/core/individual.py:calc_cv", "pymoo/util/cache.py:Cache"]}
{"id": "C122", "title": "Reported optima of the CEC 2006 problems", "statement": "What pareto_set() of the constrained problems G1, G3 (for every number of variables), G6, G11 and G12 reports is a global optimum: it is feasible, and no feasible solution has a smaller objective; the values are -15, -1, (exact formula), 3/4 and -1. What G7 reports is feasible, and no feasible solution is better by more than 1e-9. Exceptions pinned down: what G4 and G24 report violates a constraint by a rounding error, so it does not count as feasible under the default tolerance 0 for inequality constraints (no feasible solution of G24 is better by more than 1e-15); and since equality constraints have the default tolerance 1e-4, for every number of variables from two on G3 has solutions that count as feasible and are strictly better than the reported optimum.", "quantifier": "all solutions within the bounds that satisfy the constraints; all numbers of variables for G3", "why_tests_cant": "the tests evaluate the reported point; that no feasible solution is better is a statement about a continuum of solutions", "anchors": ["pymoo/problems/single/g.py:G1", "pymoo/problems/single/g.py:G3", "pymoo/problems/single/g.py:G4", "pymoo/problems/single/g.py:G6", "pymoo/problems/single/g.py:G7", "pymoo/problems/single/g.py:G11", "pymoo/problems/single/g.py:G12", "pymoo/problems/single/g.py:G24", "pymoo/core/individual.py:default_config"]}
{"id": "C123", "title": "Random search reports the best of everything it has evaluated", "statement": "After any number of iterations, and whatever is sampled in each, the optimum RandomSearch reports consists of solutions it has evaluated in some iteration that no other evaluated solution beats (feasible before infeasible, dominance among feasible, constraint violation among infeasible). Whatever is beaten by any evaluated solution is beaten by a reported one; with two or more objectives every feasible evaluated solution which no evaluated one beats is reported, although the population holds only the latest samples and the last optimum; with one objective, or as long as nothing feasible was found, exactly one solution is reported. The reported optimum never gets worse from one iteration to the next.", "quantifier": "all numbers of iterations and all evaluated samples (without NaN), any number of objectives", "why_tests_cant": "tests run a few seeds; that no solution is lost between iterations is an invariant over every history", "anchors": ["pymoo/algorithms/soo/nonconvex/random_search.py:RandomSearch._advance", "pymoo/core/algorithm.py:Algorithm.advance", "pymoo/core/algorithm.py:Algorithm._set_optimum", "pymoo/util/optimum.py:filter_optimum", "pymoo/core/population.py:merge"]}
