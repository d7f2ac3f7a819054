{
 "C06": [
  "proved",
  "Equality with the Pareto peeling for all matrices without repeated rows (C06_tree_nds_distinct), exact description for all inputs (C06_tree_characterisation); the unrestricted claim is false (C06_tree_duplicates_refuted)."
 ],
 "C07": [
  "proved",
  "Equality with the Pareto peeling when first objectives are pairwise different (C07_biobj_distinct), exact description for all inputs (C07_biobj_characterisation); the unrestricted claim is false (C07_biobj_ties_refuted)."
 ],
 "C09": [
  "proved",
  "All stopping options proved; n_fronts is ignored with a custom dominator (C09_dominator_n_fronts_ignored, C09_dominator_n_fronts_refuted)."
 ],
 "C13": [
  "partial",
  "the property is false of the code (C13_refuted: argsort positions are used as ranks); proved: slot-wise result, and correctness when the order is an involution"
 ],
 "C15": [
  "partial",
  "proved in exact (rational) arithmetic; in binary64 the claim is false (C15_binary64_refuted, absorption)"
 ],
 "C17": [
  "partial",
  "false with the default cache (C17_stale_refuted); proved: exact value returned, true with cache off, and true until values are rewritten"
 ],
 "C26": [
  "proved",
  "Clamping operators in binary64 with NaN; computing repairs in exact rationals; SBX/PM additionally in exact reals. The exception is C26_degenerate_exact / C26_degenerate_refuted; NaN passes the library's own assertion (C26_degenerate_assert)."
 ],
 "C27": [
  "partial",
  "Proved in exact arithmetic; random float sampling also under binary64 rounding (C27_float_rounded). False in binary64 for Latin hypercube sampling (C27_lhs_rounding_refuted) and when xu - xl overflows (C27_float_overflow_refuted)."
 ],
 "C31": [
  "partial",
  "The claim is false of the code (np.where returns positions relative to `rem`, so a wrong row is redrawn from the third attempt on: C31_fill_refuted). Proved: the column is duplicate free if the loop ends within two attempts."
 ],
 "C36": [
  "proved",
  "Robust termination exactly characterised for every history (C36_robust_exact); before the window is full fewer than `period` updates suffice (C36_robust_refuted)."
 ],
 "C37": [
  "partial",
  "False for non-positive targets or objective values (C37_fmin_refuted). Proved: for all targets and values exactly when it stops, continues or fails (C37_fmin_exact), in particular the property for positive targets and values; infeasible optima continue."
 ],
 "C38": [
  "proved",
  "Proved for all runs; the exception is C38_result_archive_refuted."
 ],
 "C39": [
  "proved",
  "The exception is C39_values_refuted."
 ],
 "C41": [
  "proved",
  "Proved for all histories and truncations; completeness needs duplicates to have equal values (C41_complete; false otherwise, C41_noise_refuted)."
 ],
 "C44": [
  "proved",
  "Both directions (C44_round_trip, C44_flat_round_trip); false for names with dots or empty sub-dictionaries (C44_refuted), as the quantifier says."
 ],
 "C45": [
  "partial",
  "Values (as_value=True): fully proved. as_value=False: false for nested parameters, which are set as values (C45_refuted); what happens is proved (C45_assign_partial)."
 ],
 "C46": [
  "proved",
  "The factory functions are fully proved; the exception is C46_incremental_zero_refuted."
 ],
 "C56": [
  "partial",
  "False of the code: the list comprehension that removes the chosen point from not_selected keeps positions instead of indices, so points are selected repeatedly (C56_distinct_refuted). Proved: the first added point (C56_first_partial)."
 ],
 "C47": [
  "proved",
  "Shapes, inferred type, monotonicity of weighted sum, Tchebicheff, ASF and augmented ASF. Beyond the claim: the `_type` given to the constructor is ignored by the type inference (C47_init_type_refuted); penalty boundary intersection is not monotone under dominance (C47_pbi_refuted)."
 ],
 "C48": [
  "proved",
  "Proved for all call sequences; the exception is C48_bypass_refuted."
 ],
 "C50": [
  "proved",
  "Order independence for pairwise different values as stated; with ties it is false (C50_ties_refuted)."
 ],
 "C52": [
  "proved",
  "For functions whose values have the declared sizes; when sizes are wrong the library's shape check may accept values assigned to the wrong rows (C52_misfit_refuted)."
 ],
 "C51": [
  "partial",
  "Proved for the decorator, sampling, crossover masks, SBX, PCX, PM, bit flip, tournaments, rank and crowding, their composition and a whole seeded GA run. False (refuted) for Gaussian mutation, DE crossover, randomized_argsort(quicksort), NSGA-III's tournament, constrained rank survival and random archive truncation, which call helpers without the generator; conditions under which these are harmless proved."
 ],
 "C60": [
  "partial",
  "False of the code (C60_refuted): an individual closest to a direction but associated with another one is reported as optimal and need not survive. Proved: the optimum is never empty and non-dominated."
 ],
 "C62": [
  "proved",
  "Exact arithmetic. Exceptions: C62_degenerate_refuted, C62_integer_refuted, C62_integer_collapse."
 ],
 "C63": [
  "partial",
  "False of the code (C63_refuted): ZeroToOne.do normalises instead of denormalising; C63_actual proves what is evaluated."
 ],
 "C64": [
  "proved",
  "Exact arithmetic; outside the stated conditions refuted (C64_truncation_refuted, C64_largest_refuted, C64_fixed_refuted)."
 ],
 "C65": [
  "proved",
  "Exact reals with a contract for moocore's igd/igd_plus. Beyond the claim: plain IGD can contradict dominance (C65_igd_compliance_refuted); an empty set gets the best value 0 (C65_empty_refuted)."
 ],
 "C66": [
  "proved",
  "Outside the stated conditions: C66_best_so_far_refuted (moving ideal point), C66_parallel_refuted (several children per mating)."
 ],
 "C67": [
  "partial",
  "Golden section search proved (C67_golden, C67_unimodal, C67_best; false for functions with several minima, C67_best_refuted). False of the code: a bracket given to the constructor is overwritten in _setup (C67_constructor_refuted); quadratic interpolation starts with (b - a)/2 instead of the middle (C67_midpoint_refuted) and its formula does not interpolate (C67_interpolation_refuted, C67_interpolation_actual)."
 ],
 "C68": [
  "partial",
  "False of the code: sufficient decrease can fail for steps above 1 (C68_wolfe_refuted), the search can run forever (C68_diverges) or return an unevaluated point (C68_not_evaluated_refuted). Proved of every evaluated result: positive step, curvature condition, strict improvement, sufficient decrease for steps up to 1 (C68_result_partial)."
 ]
}