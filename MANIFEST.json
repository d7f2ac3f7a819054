{
 "claims": [
  {
   "property": "C01",
   "status": "proved",
   "theorems": [
    "C01_relation_objectives",
    "C01_relation_constrained",
    "C01_relation_antisymmetric",
    "C01_dominance_transitive",
    "C01_dominance_irreflexive",
    "C01_constr_dominance_transitive",
    "C01_constr_dominance_irreflexive",
    "C01_relation_transitive"
   ],
   "note": ""
  },
  {
   "property": "C02",
   "status": "proved",
   "theorems": [
    "C02_matrix_entry",
    "C02_matrix_entry_cross",
    "C02_matrix_antisymmetric",
    "C02_matrix_diagonal",
    "C02_loop_matrix_entry"
   ],
   "note": ""
  },
  {
   "property": "C03",
   "status": "proved",
   "theorems": [
    "C03_peeling_unique",
    "C03_fast_nds",
    "C03_fast_nds_any_dominator",
    "C03_std_fast_nds"
   ],
   "note": ""
  },
  {
   "property": "C04",
   "status": "proved",
   "theorems": [
    "C04_ens_nds",
    "C04_ens_agrees_with_fast"
   ],
   "note": ""
  },
  {
   "property": "C05",
   "status": "proved",
   "theorems": [
    "C05_degree_matrix",
    "C05_dda_ns",
    "C05_dda_ens"
   ],
   "note": ""
  },
  {
   "property": "C06",
   "status": "proved",
   "theorems": [
    "C06_tree_characterisation",
    "C06_tree_nds_distinct",
    "C06_tree_duplicates_refuted"
   ],
   "note": "Equality with the Pareto peeling for all matrices without repeated rows (C06_tree_nds_distinct), exact description for all inputs (C06_tree_characterisation); the unrestricted claim is false (C06_tree_duplicates_refuted)."
  },
  {
   "property": "C07",
   "status": "proved",
   "theorems": [
    "C07_biobj_characterisation",
    "C07_biobj_distinct",
    "C07_biobj_ties_refuted"
   ],
   "note": "Equality with the Pareto peeling when first objectives are pairwise different (C07_biobj_distinct), exact description for all inputs (C07_biobj_characterisation); the unrestricted claim is false (C07_biobj_ties_refuted)."
  },
  {
   "property": "C08",
   "status": "proved",
   "theorems": [
    "C08_find_non_dominated_std",
    "C08_std_increasing",
    "C08_find_non_dominated_cross",
    "C08_increasing",
    "C08_find_non_dominated_default"
   ],
   "note": ""
  },
  {
   "property": "C09",
   "status": "proved",
   "theorems": [
    "C09_default_full",
    "C09_default_n_fronts",
    "C09_default_n_stop",
    "C09_dominator_n_stop",
    "C09_only_first",
    "C09_dominator_n_fronts_refuted",
    "C09_dominator_n_fronts_ignored",
    "C09_rank_from_fronts"
   ],
   "note": "All stopping options proved; n_fronts is ignored with a custom dominator (C09_dominator_n_fronts_ignored, C09_dominator_n_fronts_refuted)."
  },
  {
   "property": "C10",
   "status": "proved",
   "theorems": [
    "C10_survival_do",
    "C10_infeasible_sorted",
    "C10_return_indices"
   ],
   "note": ""
  },
  {
   "property": "C11",
   "status": "proved",
   "theorems": [
    "C11_nsga2_generation",
    "C11_nsga2_run",
    "C11_rank_and_crowding",
    "C11_rank_exists_unique",
    "C11_best_front_survives",
    "C11_default_sorter",
    "C11_randomized_argsort",
    "C11_nsga2_survival"
   ],
   "note": ""
  },
  {
   "property": "C12",
   "status": "proved",
   "theorems": [
    "C12_constr_rank_and_crowding"
   ],
   "note": ""
  },
  {
   "property": "C13",
   "status": "partial",
   "theorems": [
    "C13_refuted",
    "C13_slotwise",
    "C13_involution_partial"
   ],
   "note": "the property is false of the code (C13_refuted: argsort positions are used as ranks); proved: slot-wise result, and correctness when the order is an involution"
  },
  {
   "property": "C14",
   "status": "proved",
   "theorems": [
    "C14_replacement",
    "C14_history",
    "C14_better_strict_order",
    "C14_is_better"
   ],
   "note": ""
  },
  {
   "property": "C15",
   "status": "partial",
   "theorems": [
    "C15_hierarchical_sort",
    "C15_no_constraints",
    "C15_binary64_refuted"
   ],
   "note": "proved in exact (rational) arithmetic; in binary64 the claim is false (C15_binary64_refuted, absorption)"
  },
  {
   "property": "C16",
   "status": "proved",
   "theorems": [
    "C16_violation",
    "C16_default_config",
    "C16_feasible",
    "C16_population"
   ],
   "note": ""
  },
  {
   "property": "C17",
   "status": "partial",
   "theorems": [
    "C17_cache_off",
    "C17_cached_value",
    "C17_current_until_rewritten_partial",
    "C17_stale_refuted"
   ],
   "note": "false with the default cache (C17_stale_refuted); proved: exact value returned, true with cache off, and true until values are rewritten"
  },
  {
   "property": "C18",
   "status": "proved",
   "theorems": [
    "C18_eval",
    "C18_values",
    "C18_idempotent",
    "C18_counter_history"
   ],
   "note": ""
  },
  {
   "property": "C19",
   "status": "proved",
   "theorems": [
    "C19_budget",
    "C19_novel",
    "C19_novel_elementwise",
    "C19_novel_hash",
    "C19_n_matings",
    "C19_one_round"
   ],
   "note": ""
  },
  {
   "property": "C20",
   "status": "proved",
   "theorems": [
    "C20_default",
    "C20_elementwise",
    "C20_hash",
    "C20_pairwise_apart",
    "C20_one_per_class",
    "C20_indices",
    "C20_hash_default_refuted"
   ],
   "note": ""
  },
  {
   "property": "C21",
   "status": "proved",
   "theorems": [
    "C21_ox",
    "C21_operator"
   ],
   "note": ""
  },
  {
   "property": "C22",
   "status": "proved",
   "theorems": [
    "C22_erx"
   ],
   "note": ""
  },
  {
   "property": "C23",
   "status": "proved",
   "theorems": [
    "C23_inversion"
   ],
   "note": ""
  },
  {
   "property": "C24",
   "status": "proved",
   "theorems": [
    "C24_uniform",
    "C24_half_uniform",
    "C24_half_uniform_distance",
    "C24_point",
    "C24_exponential",
    "C24_binomial"
   ],
   "note": ""
  },
  {
   "property": "C25",
   "status": "proved",
   "theorems": [
    "C25_do",
    "C25_evenly",
    "C25_no_crossover"
   ],
   "note": ""
  },
  {
   "property": "C26",
   "status": "proved",
   "theorems": [
    "C26_clamp",
    "C26_sbx",
    "C26_pm",
    "C26_inverse_penalty",
    "C26_repairs",
    "C26_periodic_shift",
    "C26_degenerate_refuted",
    "C26_degenerate_exact",
    "C26_degenerate_assert",
    "C26_gauss",
    "C26_dex",
    "C26_dex_unbounded",
    "C26_sbx_exact",
    "C26_pm_exact"
   ],
   "note": "Clamping operators in binary64 with NaN; computing repairs in exact rationals; SBX/PM additionally in exact reals. The exception is C26_degenerate_exact / C26_degenerate_refuted; NaN passes the library's own assertion (C26_degenerate_assert)."
  },
  {
   "property": "C27",
   "status": "partial",
   "theorems": [
    "C27_float_rounded",
    "C27_float",
    "C27_float_bad_bounds",
    "C27_float_overflow_refuted",
    "C27_binary",
    "C27_integer",
    "C27_permutation",
    "C27_lhs",
    "C27_lhs_criterion",
    "C27_lhs_rounding_refuted"
   ],
   "note": "Proved in exact arithmetic; random float sampling also under binary64 rounding (C27_float_rounded). False in binary64 for Latin hypercube sampling (C27_lhs_rounding_refuted) and when xu - xl overflows (C27_float_overflow_refuted)."
  },
  {
   "property": "C28",
   "status": "proved",
   "theorems": [
    "C28_rounding",
    "C28_integers_unchanged",
    "C28_nearest"
   ],
   "note": ""
  },
  {
   "property": "C29",
   "status": "proved",
   "theorems": [
    "C29_nsga2_rank",
    "C29_nsga2_dom",
    "C29_nsga3",
    "C29_unsga3",
    "C29_ga",
    "C29_clearing",
    "C29_sms",
    "C29_spea2",
    "C29_ctaea",
    "C29_age",
    "C29_feasible_wins",
    "C29_fair",
    "C29_fair_exact",
    "C29_no_self_tournament",
    "C29_self_tournament_refuted",
    "C29_shape",
    "C29_random_selection"
   ],
   "note": ""
  },
  {
   "property": "C30",
   "status": "proved",
   "theorems": [
    "C30_rand",
    "C30_best",
    "C30_current_to_best",
    "C30_current_to_rand",
    "C30_ranked",
    "C30_stops",
    "C30_never_stops"
   ],
   "note": ""
  },
  {
   "property": "C31",
   "status": "partial",
   "theorems": [
    "C31_fill_refuted",
    "C31_fill_partial"
   ],
   "note": "The claim is false of the code (np.where returns positions relative to `rem`, so a wrong row is redrawn from the third attempt on: C31_fill_refuted). Proved: the column is duplicate free if the loop ends within two attempts."
  },
  {
   "property": "C32",
   "status": "proved",
   "theorems": [
    "C32_quicksort",
    "C32_quicksort_permutation",
    "C32_randomized_argsort"
   ],
   "note": ""
  },
  {
   "property": "C33",
   "status": "proved",
   "theorems": [
    "C33_permutation",
    "C33_pr_zero",
    "C33_feasible",
    "C33_pr_one"
   ],
   "note": ""
  },
  {
   "property": "C34",
   "status": "proved",
   "theorems": [
    "C34_any_termination",
    "C34_generations",
    "C34_generations_total",
    "C34_evaluations",
    "C34_forced",
    "C34_callback_one_more",
    "C34_binary64"
   ],
   "note": ""
  },
  {
   "property": "C35",
   "status": "proved",
   "theorems": [
    "C35_any",
    "C35_all",
    "C35_combined_succeeds",
    "C35_forced",
    "C35_progress_nonneg"
   ],
   "note": ""
  },
  {
   "property": "C36",
   "status": "proved",
   "theorems": [
    "C36_window",
    "C36_window_unbounded",
    "C36_robust_exact",
    "C36_robust_full_window",
    "C36_robust_refuted"
   ],
   "note": "Robust termination exactly characterised for every history (C36_robust_exact); before the window is full fewer than `period` updates suffice (C36_robust_refuted)."
  },
  {
   "property": "C37",
   "status": "partial",
   "theorems": [
    "C37_fmin_exact",
    "C37_fmin_partial",
    "C37_infeasible_continues",
    "C37_fmin_refuted"
   ],
   "note": "False for non-positive targets or objective values (C37_fmin_refuted). Proved: for all targets and values exactly when it stops, continues or fails (C37_fmin_exact), in particular the property for positive targets and values; infeasible optima continue."
  },
  {
   "property": "C38",
   "status": "proved",
   "theorems": [
    "C38_ask_tell",
    "C38_invariant",
    "C38_tagged",
    "C38_tell_returns",
    "C38_result_archive_refuted"
   ],
   "note": "Proved for all runs; the exception is C38_result_archive_refuted."
  },
  {
   "property": "C39",
   "status": "proved",
   "theorems": [
    "C39_success",
    "C39_report",
    "C39_default_optimum",
    "C39_values_refuted"
   ],
   "note": "The exception is C39_values_refuted."
  },
  {
   "property": "C40",
   "status": "proved",
   "theorems": [
    "C40_multi",
    "C40_single",
    "C40_infeasible",
    "C40_empty"
   ],
   "note": ""
  },
  {
   "property": "C41",
   "status": "proved",
   "theorems": [
    "C41_archive",
    "C41_complete",
    "C41_no_truncation_needed",
    "C41_noise_refuted"
   ],
   "note": "Proved for all histories and truncations; completeness needs duplicates to have equal values (C41_complete; false otherwise, C41_noise_refuted)."
  },
  {
   "property": "C42",
   "status": "proved",
   "theorems": [
    "C42_elitism",
    "C42_reported_optimum"
   ],
   "note": ""
  },
  {
   "property": "C43",
   "status": "proved",
   "theorems": [
    "C43_merge",
    "C43_merge_assoc",
    "C43_set_get",
    "C43_set_mismatch",
    "C43_new",
    "C43_slice_aliasing"
   ],
   "note": ""
  },
  {
   "property": "C44",
   "status": "proved",
   "theorems": [
    "C44_round_trip",
    "C44_flat_round_trip",
    "C44_refuted"
   ],
   "note": "Both directions (C44_round_trip, C44_flat_round_trip); false for names with dots or empty sub-dictionaries (C44_refuted), as the quantifier says."
  },
  {
   "property": "C45",
   "status": "partial",
   "theorems": [
    "C45_values",
    "C45_succeeds",
    "C45_refuted",
    "C45_assign_partial"
   ],
   "note": "Values (as_value=True): fully proved. as_value=False: false for nested parameters, which are set as values (C45_refuted); what happens is proved (C45_assign_partial)."
  },
  {
   "property": "C46",
   "status": "proved",
   "theorems": [
    "C46_das_dennis",
    "C46_zero",
    "C46_n_points",
    "C46_factory",
    "C46_incremental",
    "C46_incremental_zero_refuted"
   ],
   "note": "The factory functions are fully proved; the exception is C46_incremental_zero_refuted."
  },
  {
   "property": "C47",
   "status": "proved",
   "theorems": [
    "C47_shapes",
    "C47_auto",
    "C47_init_type_refuted",
    "C47_values",
    "C47_monotone",
    "C47_strict",
    "C47_pbi_refuted"
   ],
   "note": "Shapes, inferred type, monotonicity of weighted sum, Tchebicheff, ASF and augmented ASF. Beyond the claim: the `_type` given to the constructor is ignored by the type inference (C47_init_type_refuted); penalty boundary intersection is not monotone under dominance (C47_pbi_refuted)."
  },
  {
   "property": "C48",
   "status": "proved",
   "theorems": [
    "C48_first_result",
    "C48_flags",
    "C48_bypass_refuted",
    "C48_values"
   ],
   "note": "Proved for all call sequences; the exception is C48_bypass_refuted."
  },
  {
   "property": "C49",
   "status": "proved",
   "theorems": [
    "C49_roulette",
    "C49_minimise",
    "C49_clearing"
   ],
   "note": ""
  },
  {
   "property": "C50",
   "status": "proved",
   "theorems": [
    "C50_value",
    "C50_extremes",
    "C50_order",
    "C50_ties_refuted",
    "C50_duplicates"
   ],
   "note": "Order independence for pairwise different values as stated; with ties it is false (C50_ties_refuted)."
  },
  {
   "property": "C51",
   "status": "partial",
   "theorems": [
    "C51_decorator",
    "C51_sampling",
    "C51_crossover",
    "C51_mutation",
    "C51_selection",
    "C51_compose",
    "C51_minimize",
    "C51_gauss_refuted",
    "C51_dex_refuted",
    "C51_quicksort_refuted",
    "C51_nsga3_refuted",
    "C51_constr_refuted",
    "C51_archive_refuted",
    "C51_repair_inside",
    "C51_nsga3_distinct",
    "C51_constr_unsplit"
   ],
   "note": "Proved for the decorator, sampling, crossover masks, SBX, PCX, PM, bit flip, tournaments, rank and crowding, their composition and a whole seeded GA run. False (refuted) for Gaussian mutation, DE crossover, randomized_argsort(quicksort), NSGA-III's tournament, constrained rank survival and random archive truncation, which call helpers without the generator; conditions under which these are harmless proved."
  },
  {
   "property": "C52",
   "status": "proved",
   "theorems": [
    "C52_runner",
    "C52_elementwise",
    "C52_vectorized",
    "C52_columns",
    "C52_tuple",
    "C52_misfit_refuted"
   ],
   "note": "For functions whose values have the declared sizes; when sizes are wrong the library's shape check may accept values assigned to the wrong rows (C52_misfit_refuted)."
  },
  {
   "property": "C53",
   "status": "proved",
   "theorems": [
    "C53_delta",
    "C53_reference",
    "C53_frozen"
   ],
   "note": ""
  },
  {
   "property": "C54",
   "status": "proved",
   "theorems": [
    "C54_get_params"
   ],
   "note": ""
  },
  {
   "property": "C55",
   "status": "proved",
   "theorems": [
    "C55_sum",
    "C55_kraemer"
   ],
   "note": ""
  },
  {
   "property": "C56",
   "status": "partial",
   "theorems": [
    "C56_distinct_refuted",
    "C56_first_partial",
    "C56_steps_partial"
   ],
   "note": "False of the code: the list comprehension that removes the chosen point from not_selected keeps positions instead of indices, so points are selected repeatedly (C56_distinct_refuted). Proved: the first added point (C56_first_partial)."
  },
  {
   "property": "C57",
   "status": "proved",
   "theorems": [
    "C57_lattice",
    "C57_n_points"
   ],
   "note": ""
  },
  {
   "property": "C58",
   "status": "proved",
   "theorems": [
    "C58_project"
   ],
   "note": ""
  },
  {
   "property": "C59",
   "status": "proved",
   "theorems": [
    "C59_niching",
    "C59_too_many",
    "C59_niche_count",
    "C59_survival",
    "C59_ranks",
    "C59_nsga3_survival",
    "C59_association",
    "C59_normalised"
   ],
   "note": ""
  },
  {
   "property": "C60",
   "status": "partial",
   "theorems": [
    "C60_optimum_partial",
    "C60_refuted"
   ],
   "note": "False of the code (C60_refuted): an individual closest to a direction but associated with another one is reported as optimal and need not survive. Proved: the optimum is never empty and non-dominated."
  },
  {
   "property": "C61",
   "status": "proved",
   "theorems": [
    "C61_history",
    "C61_nadir",
    "C61_intercepts",
    "C61_extreme"
   ],
   "note": ""
  },
  {
   "property": "C62",
   "status": "proved",
   "theorems": [
    "C62_accepts",
    "C62_inverse",
    "C62_range",
    "C62_estimated",
    "C62_denormalize",
    "C62_degenerate_refuted",
    "C62_integer_refuted",
    "C62_integer_collapse",
    "C62_simple",
    "C62_ideal"
   ],
   "note": "Exact arithmetic. Exceptions: C62_degenerate_refuted, C62_integer_refuted, C62_integer_collapse."
  },
  {
   "property": "C63",
   "status": "partial",
   "theorems": [
    "C63_refuted",
    "C63_actual"
   ],
   "note": "False of the code (C63_refuted): ZeroToOne.do normalises instead of denormalising; C63_actual proves what is evaluated."
  },
  {
   "property": "C64",
   "status": "proved",
   "theorems": [
    "C64_tiles",
    "C64_points",
    "C64_shape",
    "C64_selection",
    "C64_growth",
    "C64_largest_refuted",
    "C64_truncation_refuted",
    "C64_fixed_refuted"
   ],
   "note": "Exact arithmetic; outside the stated conditions refuted (C64_truncation_refuted, C64_largest_refuted, C64_fixed_refuted)."
  },
  {
   "property": "C65",
   "status": "proved",
   "theorems": [
    "C65_gd",
    "C65_igd",
    "C65_zero",
    "C65_add",
    "C65_compliant",
    "C65_igd_compliance_refuted",
    "C65_empty",
    "C65_empty_refuted"
   ],
   "note": "Exact reals with a contract for moocore's igd/igd_plus. Beyond the claim: plain IGD can contradict dominance (C65_igd_compliance_refuted); an empty set gets the best value 0 (C65_empty_refuted)."
  },
  {
   "property": "C66",
   "status": "proved",
   "theorems": [
    "C66_neighbours",
    "C66_replace",
    "C66_run",
    "C66_step",
    "C66_best_so_far",
    "C66_best_so_far_refuted",
    "C66_parents",
    "C66_parallel_actual",
    "C66_parallel_one_child",
    "C66_parallel_refuted",
    "C66_parallel"
   ],
   "note": "Outside the stated conditions: C66_best_so_far_refuted (moving ideal point), C66_parallel_refuted (several children per mating)."
  },
  {
   "property": "C67",
   "status": "partial",
   "theorems": [
    "C67_golden",
    "C67_unimodal",
    "C67_best",
    "C67_best_refuted",
    "C67_constructor_refuted",
    "C67_ends",
    "C67_midpoint",
    "C67_midpoint_refuted",
    "C67_interpolation_refuted",
    "C67_interpolation_actual"
   ],
   "note": "Golden section search proved (C67_golden, C67_unimodal, C67_best; false for functions with several minima, C67_best_refuted). False of the code: a bracket given to the constructor is overwritten in _setup (C67_constructor_refuted); quadratic interpolation starts with (b - a)/2 instead of the middle (C67_midpoint_refuted) and its formula does not interpolate (C67_interpolation_refuted, C67_interpolation_actual)."
  },
  {
   "property": "C68",
   "status": "partial",
   "theorems": [
    "C68_result_partial",
    "C68_wolfe_refuted",
    "C68_diverges",
    "C68_not_evaluated_refuted"
   ],
   "note": "False of the code: sufficient decrease can fail for steps above 1 (C68_wolfe_refuted), the search can run forever (C68_diverges) or return an unevaluated point (C68_not_evaluated_refuted). Proved of every evaluated result: positive step, curvature condition, strict improvement, sufficient decrease for steps up to 1 (C68_result_partial)."
  },
  {
   "property": "C69",
   "status": "proved",
   "theorems": [
    "C69_max_alpha",
    "C69_max_alpha_exact",
    "C69_max_alpha_refuted",
    "C69_step",
    "C69_best",
    "C69_worst_or_shrink",
    "C69_run",
    "C69_params",
    "C69_initial_simplex",
    "C69_scale_ignored",
    "C69_best_refuted",
    "C69_collapse"
   ],
   "note": ""
  },
  {
   "property": "C70",
   "status": "proved",
   "theorems": [
    "C70_axis",
    "C70_exploration",
    "C70_iteration",
    "C70_direction",
    "C70_run",
    "C70_delta",
    "C70_seed_refuted"
   ],
   "note": ""
  },
  {
   "property": "C71",
   "status": "proved",
   "theorems": [
    "C71_values",
    "C71_feasible",
    "C71_front",
    "C71_evaluate_refuted",
    "C71_append_refuted"
   ],
   "note": ""
  },
  {
   "property": "C72",
   "status": "proved",
   "theorems": [
    "C72_values",
    "C72_exact",
    "C72_multi_refuted"
   ],
   "note": ""
  },
  {
   "property": "C73",
   "status": "proved",
   "theorems": [
    "C73_bounds",
    "C73_remove_refuted",
    "C73_default_names",
    "C73_violation"
   ],
   "note": ""
  },
  {
   "property": "C74",
   "status": "proved",
   "theorems": [
    "C74_relaxed",
    "C74_thresholds",
    "C74_decreasing",
    "C74_n_eval_refuted"
   ],
   "note": ""
  },
  {
   "property": "C75",
   "status": "proved",
   "theorems": [
    "C75_values",
    "C75_single_refuted",
    "C75_default_refuted"
   ],
   "note": ""
  },
  {
   "property": "C76",
   "status": "proved",
   "theorems": [
    "C76_functional",
    "C76_functional_single",
    "C76_static",
    "C76_elementwise_refuted"
   ],
   "note": ""
  },
  {
   "property": "C77",
   "status": "proved",
   "theorems": [
    "C77_replacement",
    "C77_best",
    "C77_runs",
    "C77_many_offspring_refuted",
    "C77_steady_state_refuted",
    "C77_trial_box",
    "C77_weights",
    "C77_mask"
   ],
   "note": ""
  },
  {
   "property": "C78",
   "status": "proved",
   "theorems": [
    "C78_best",
    "C78_personal",
    "C78_personal_best_refuted",
    "C78_velocity",
    "C78_move_box",
    "C78_vmax",
    "C78_unbounded_refuted",
    "C78_initial_velocity",
    "C78_membership",
    "C78_strategy",
    "C78_strategy_by_factor",
    "C78_coefficients",
    "C78_sum_refuted",
    "C78_no_rescale",
    "C78_factor_refuted",
    "C78_inertia"
   ],
   "note": ""
  },
  {
   "property": "C79",
   "status": "proved",
   "theorems": [
    "C79_sizes",
    "C79_default_rule",
    "C79_repair",
    "C79_offspring",
    "C79_isres_offspring",
    "C79_isres_alpha_refuted",
    "C79_sigma_max",
    "C79_unbounded_refuted",
    "C79_population",
    "C79_picks",
    "C79_picks_fitness",
    "C79_reported_optimum",
    "C79_comma_refuted",
    "C79_sres_refuted",
    "C79_sres_seed_refuted",
    "C79_sres_seed_unconstrained"
   ],
   "note": ""
  },
  {
   "property": "C80",
   "status": "proved",
   "theorems": [
    "C80_selection",
    "C80_survival",
    "C80_removal",
    "C80_one_offspring",
    "C80_never_decreases",
    "C80_truncation",
    "C80_many_offspring_refuted"
   ],
   "note": ""
  },
  {
   "property": "C81",
   "status": "proved",
   "theorems": [
    "C81_raw",
    "C81_fitness",
    "C81_neighbour",
    "C81_selection",
    "C81_closest",
    "C81_survival",
    "C81_boundary",
    "C81_boundary_refuted"
   ],
   "note": ""
  },
  {
   "property": "C82",
   "status": "proved",
   "theorems": [
    "C82_gamma",
    "C82_survivors",
    "C82_ideal",
    "C82_nadir",
    "C82_adapt",
    "C82_init",
    "C82_collapse",
    "C82_constant_objective",
    "C82_population",
    "C82_budget",
    "C82_extreme_refuted",
    "C82_dominated_refuted",
    "C82_feasible_first_refuted"
   ],
   "note": ""
  },
  {
   "property": "C83",
   "status": "proved",
   "theorems": [
    "C83_ca",
    "C83_truncation",
    "C83_balanced",
    "C83_niches",
    "C83_opt",
    "C83_da",
    "C83_da_terminates",
    "C83_step",
    "C83_opt_feasible_refuted",
    "C83_opt_nonempty_refuted",
    "C83_da_distinct_refuted",
    "C83_init_refuted",
    "C83_mating",
    "C83_mating_range"
   ],
   "note": ""
  },
  {
   "property": "C84",
   "status": "proved",
   "theorems": [
    "C84_mating",
    "C84_n_matings",
    "C84_default",
    "C84_sampling",
    "C84_choice_refuted",
    "C84_order_refuted",
    "C84_values",
    "C84_inherit",
    "C84_copies",
    "C84_duplicate",
    "C84_duplicate_refuted"
   ],
   "note": ""
  },
  {
   "property": "C85",
   "status": "proved",
   "theorems": [
    "C85_sphere",
    "C85_ackley",
    "C85_griewank",
    "C85_rastrigin",
    "C85_zakharov",
    "C85_rosenbrock",
    "C85_rosenbrock_refuted",
    "C85_himmelblau",
    "C85_schwefel",
    "C85_schwefel_set"
   ],
   "note": ""
  },
  {
   "property": "C86",
   "status": "proved",
   "theorems": [
    "C86_zdt1",
    "C86_zdt2",
    "C86_zdt3",
    "C86_zdt4",
    "C86_zdt6",
    "C86_zdt5",
    "C86_zdt5_bits_refuted",
    "C86_zdt3_refuted"
   ],
   "note": ""
  },
  {
   "property": "C87",
   "status": "proved",
   "theorems": [
    "C87_dtlz1",
    "C87_dtlz2",
    "C87_dtlz3",
    "C87_dtlz4",
    "C87_dtlz5",
    "C87_dtlz6",
    "C87_dtlz7",
    "C87_dtlz7_refuted",
    "C87_scaled",
    "C87_convex",
    "C87_scaled_convex_dtlz",
    "C87_inverted"
   ],
   "note": ""
  },
  {
   "property": "C88",
   "status": "proved",
   "theorems": [
    "C88_bnh",
    "C88_srn",
    "C88_srn_refuted",
    "C88_sympart",
    "C88_sympart_refuted",
    "C88_omnitest",
    "C88_beam_refuted",
    "C88_vessel_refuted",
    "C88_mw1",
    "C88_mw2",
    "C88_mw4",
    "C88_mw8"
   ],
   "note": ""
  },
  {
   "property": "C89",
   "status": "proved",
   "theorems": [
    "C89_tsp_length",
    "C89_tsp_rotate",
    "C89_tsp_reverse",
    "C89_tsp_lower",
    "C89_tsp_bounds_refuted",
    "C89_flowshop_schedule",
    "C89_flowshop_makespan",
    "C89_flowshop_bounds_refuted",
    "C89_knapsack",
    "C89_knapsack_evaluates",
    "C89_mo_knapsack_refuted"
   ],
   "note": ""
  },
  {
   "property": "C90",
   "status": "proved",
   "theorems": [
    "C90_pseudo_weights",
    "C90_pseudo_weights_constant_refuted",
    "C90_pseudo_weights_worst_refuted",
    "C90_pseudo_weights_units",
    "C90_outliers",
    "C90_tradeoffs",
    "C90_tradeoff_few_refuted",
    "C90_epsilon_refuted",
    "C90_compromise_refuted"
   ],
   "note": ""
  },
  {
   "property": "C91",
   "status": "proved",
   "theorems": [
    "C91_duels",
    "C91_generation",
    "C91_run",
    "C91_trial",
    "C91_trial_mask",
    "C91_target",
    "C91_forgets_refuted"
   ],
   "note": ""
  },
  {
   "property": "C92",
   "status": "proved",
   "theorems": [
    "C92_elites",
    "C92_history",
    "C92_multi",
    "C92_dedup",
    "C92_dedup_refuted",
    "C92_multi_constraints_refuted",
    "C92_selection",
    "C92_no_elite",
    "C92_g3pcx",
    "C92_is_better",
    "C92_loops"
   ],
   "note": ""
  },
  {
   "property": "C93",
   "status": "proved",
   "theorems": [
    "C93_tournament",
    "C93_optimum",
    "C93_complete",
    "C93_initial_cut",
    "C93_duplicates_refuted",
    "C93_feasible_refuted",
    "C93_forgets_refuted",
    "C93_pbest",
    "C93_leader",
    "C93_movement",
    "C93_winner",
    "C93_elites"
   ],
   "note": ""
  },
  {
   "property": "C94",
   "status": "proved",
   "theorems": [
    "C94_optimum",
    "C94_nrbo",
    "C94_local_best",
    "C94_star",
    "C94_ring",
    "C94_ring_not_global_refuted",
    "C94_star_start_refuted",
    "C94_movement",
    "C94_first_generation_refuted",
    "C94_nrbo_box",
    "C94_delta",
    "C94_delta_refuted"
   ],
   "note": ""
  },
  {
   "property": "C95",
   "status": "proved",
   "theorems": [
    "C95_survival",
    "C95_best_front",
    "C95_constraints",
    "C95_optimum",
    "C95_corners",
    "C95_last_front_refuted",
    "C95_survival_example",
    "C95_two_smallest",
    "C95_greedy",
    "C95_scores",
    "C95_corner_solutions",
    "C95_exponent",
    "C95_scores_example",
    "C95_crowding",
    "C95_crowding_example"
   ],
   "note": ""
  },
  {
   "property": "C96",
   "status": "proved",
   "theorems": [
    "C96_generation",
    "C96_run",
    "C96_forgets_refuted",
    "C96_run_example"
   ],
   "note": ""
  },
  {
   "property": "C97",
   "status": "proved",
   "theorems": [
    "C97_ranking",
    "C97_clearing",
    "C97_survival",
    "C97_values",
    "C97_constraints",
    "C97_optimum",
    "C97_closest",
    "C97_example",
    "C97_duplicates_refuted",
    "C97_ref_points_grow",
    "C97_normalization",
    "C97_distance"
   ],
   "note": ""
  },
  {
   "property": "C98",
   "status": "proved",
   "theorems": [
    "C98_directions",
    "C98_around",
    "C98_directions_example",
    "C98_survival",
    "C98_constraints",
    "C98_survival_opt",
    "C98_report",
    "C98_stale_refuted",
    "C98_example",
    "C98_points",
    "C98_nadir",
    "C98_nadir_refuted"
   ],
   "note": ""
  },
  {
   "property": "C99",
   "status": "proved",
   "theorems": [
    "C99_no_false_alarm",
    "C99_masked",
    "C99_detects",
    "C99_samples",
    "C99_generation",
    "C99_static",
    "C99_missed_refuted",
    "C99_example",
    "C99_masked_example",
    "C99_version_A_reproducible",
    "C99_version_B_reproducible_refuted"
   ],
   "note": ""
  },
  {
   "property": "C100",
   "status": "proved",
   "theorems": [
    "C100_selection",
    "C100_mnn",
    "C100_pcd",
    "C100_constant",
    "C100_extremes",
    "C100_wrapper",
    "C100_example"
   ],
   "note": ""
  },
  {
   "property": "C101",
   "status": "proved",
   "theorems": [
    "C101_single",
    "C101_multi",
    "C101_not_early",
    "C101_stops",
    "C101_until_feasible"
   ],
   "note": ""
  },
  {
   "property": "C102",
   "status": "proved",
   "theorems": [
    "C102_rmetric",
    "C102_none",
    "C102_front",
    "C102_spacing",
    "C102_spacing_zero",
    "C102_spacing_order",
    "C102_spacing_few"
   ],
   "note": ""
  },
  {
   "property": "C103",
   "status": "proved",
   "theorems": [
    "C103_value",
    "C103_few",
    "C103_range",
    "C103_extremes"
   ],
   "note": ""
  },
  {
   "property": "C104",
   "status": "proved",
   "theorems": [
    "C104_loose_matrix",
    "C104_loose_order",
    "C104_fronts",
    "C104_dominated_optimum_refuted",
    "C104_objective_crowding",
    "C104_variable_crowding",
    "C104_combined_crowding",
    "C104_one_space",
    "C104_average_refuted",
    "C104_survival",
    "C104_no_crowding_raises",
    "C104_best_survives",
    "C104_best_lost_refuted",
    "C104_constrained",
    "C104_pairs",
    "C104_pairs_distinct",
    "C104_single_refuted",
    "C104_normalised",
    "C104_optimum"
   ],
   "note": ""
  },
  {
   "property": "C105",
   "status": "proved",
   "theorems": [
    "C105_deepcopy",
    "C105_deepcopy_succeeds",
    "C105_minimize_changes_only",
    "C105_algorithm_and_termination_untouched",
    "C105_setup",
    "C105_set_up_before",
    "C105_meta",
    "C105_history",
    "C105_snapshot_restores",
    "C105_snapshot_fails",
    "C105_options_copied_refuted",
    "C105_no_copy"
   ],
   "note": ""
  },
  {
   "property": "C106",
   "status": "proved",
   "theorems": [
    "C106_callback_calls",
    "C106_collection_only_updates",
    "C106_recorder",
    "C106_recorder_total",
    "C106_recorder_reused",
    "C106_single_objective_entry",
    "C106_initialization",
    "C106_initial_population"
   ],
   "note": ""
  },
  {
   "property": "C107",
   "status": "proved",
   "theorems": [
    "C107_matrix",
    "C107_fronts",
    "C107_fronts_sorted",
    "C107_no_preference",
    "C107_order_refuted",
    "C107_hang_refuted"
   ],
   "note": ""
  },
  {
   "property": "C108",
   "status": "proved",
   "theorems": [
    "C108_pairwise_dense",
    "C108_pairwise_consistent",
    "C108_pairwise_total",
    "C108_absolute",
    "C108_absolute_refuted",
    "C108_refit_ends",
    "C108_v2",
    "C108_remove",
    "C108_second_best_refuted",
    "C108_advance",
    "C108_no_preference_refuted"
   ],
   "note": ""
  },
  {
   "property": "C109",
   "status": "proved",
   "theorems": [
    "C109_linear",
    "C109_poly",
    "C109_poly_monotone_refuted",
    "C109_ties_refuted",
    "C109_comparator"
   ],
   "note": ""
  },
  {
   "property": "C110",
   "status": "proved",
   "theorems": [
    "C110_hv_monotone",
    "C110_hv_strict",
    "C110_hv_same",
    "C110_hv_union",
    "C110_reference",
    "C110_init",
    "C110_value",
    "C110_compliant",
    "C110_compliant_strict",
    "C110_default_reference_refuted",
    "C110_integer_refuted",
    "C110_epsilon",
    "C110_epsilon_covers",
    "C110_epsilon_mult",
    "C110_epsilon_mult_refuted",
    "C110_approximate",
    "C110_approximate_laws"
   ],
   "note": ""
  },
  {
   "property": "C111",
   "status": "proved",
   "theorems": [
    "C111_c1dtlz1",
    "C111_c1dtlz3",
    "C111_c1dtlz3_default",
    "C111_c1dtlz3_small_radius",
    "C111_dc2",
    "C111_c2dtlz2",
    "C111_c2dtlz2_nonempty",
    "C111_c3dtlz4",
    "C111_c3dtlz4_general",
    "C111_c3dtlz4_refuted",
    "C111_c3dtlz1_refuted",
    "C111_dc1dtlz1",
    "C111_dc1dtlz3",
    "C111_dc1_refuted",
    "C111_dc3"
   ],
   "note": ""
  },
  {
   "property": "C112",
   "status": "proved",
   "theorems": [
    "C112_archive",
    "C112_condense",
    "C112_greedy",
    "C112_no_clusters",
    "C112_labels",
    "C112_labelled_once",
    "C112_random_strategy",
    "C112_population",
    "C112_small_population",
    "C112_generation",
    "C112_runs",
    "C112_shared_default",
    "C112_isolated"
   ],
   "note": ""
  },
  {
   "property": "C113",
   "status": "proved",
   "theorems": [
    "C113_df1",
    "C113_df3",
    "C113_df2",
    "C113_df5",
    "C113_df6",
    "C113_df8",
    "C113_df7",
    "C113_df4",
    "C113_df9",
    "C113_df10",
    "C113_df11",
    "C113_df13",
    "C113_df14",
    "C113_df12_batch",
    "C113_clock",
    "C113_simulation",
    "C113_front_cached",
    "C113_front_current",
    "C113_set_time_refuted"
   ],
   "note": ""
  },
  {
   "property": "C114",
   "status": "proved",
   "theorems": [
    "C114_window",
    "C114_deltas",
    "C114_igd",
    "C114_hv",
    "C114_rescaled",
    "C114_migd"
   ],
   "note": ""
  },
  {
   "property": "C115",
   "status": "proved",
   "theorems": [
    "C115_table",
    "C115_printable",
    "C115_int",
    "C115_float",
    "C115_output",
    "C115_output_again",
    "C115_output_given",
    "C115_output_quiet",
    "C115_progress",
    "C115_float_cut",
    "C115_columns",
    "C115_text"
   ],
   "note": ""
  },
  {
   "property": "C116",
   "status": "proved",
   "theorems": [
    "C116_wfg3_reported",
    "C116_wfg_range",
    "C116_wfg_reported",
    "C116_wfg_front",
    "C116_wfg1_front",
    "C116_wfg9_reported_front",
    "C116_pareto_set",
    "C116_pareto_set_raises",
    "C116_front_rounds",
    "C116_wfg2_refuted"
   ],
   "note": ""
  },
  {
   "property": "C117",
   "status": "proved",
   "theorems": [
    "C117_survivors",
    "C117_first",
    "C117_rounds",
    "C117_apart",
    "C117_covered",
    "C117_opt",
    "C117_niche",
    "C117_run",
    "C117_zero_raises",
    "C117_niche_refuted",
    "C117_ranks"
   ],
   "note": ""
  },
  {
   "property": "C118",
   "status": "proved",
   "theorems": [
    "C118_simplex",
    "C118_gradient",
    "C118_best",
    "C118_energy_refuted",
    "C118_mean"
   ],
   "note": ""
  },
  {
   "property": "C119",
   "status": "proved",
   "theorems": [
    "C119_recorded",
    "C119_credit",
    "C119_credit_two",
    "C119_credit_all",
    "C119_enough",
    "C119_none",
    "C119_seed_refuted",
    "C119_random",
    "C119_filled",
    "C119_age",
    "C119_evolved",
    "C119_random_run",
    "C119_run",
    "C119_kept"
   ],
   "note": ""
  },
  {
   "property": "C120",
   "status": "proved",
   "theorems": [
    "C120_limit",
    "C120_abs_refuted",
    "C120_quadratic",
    "C120_polynomial",
    "C120_keys",
    "C120_entries"
   ],
   "note": ""
  },
  {
   "property": "C121",
   "status": "proved",
   "theorems": [
    "C121_terminates",
    "C121_infeasible",
    "C121_raises",
    "C121_range",
    "C121_zero",
    "C121_critical",
    "C121_ideal",
    "C121_solver",
    "C121_feasible_refuted"
   ],
   "note": ""
  },
  {
   "property": "C122",
   "status": "proved",
   "theorems": [
    "C122_g1",
    "C122_g3",
    "C122_g3_refuted",
    "C122_g4_refuted",
    "C122_g6",
    "C122_g7",
    "C122_g11",
    "C122_g12",
    "C122_g24_refuted",
    "C122_g24"
   ],
   "note": ""
  },
  {
   "property": "C123",
   "status": "proved",
   "theorems": [
    "C123_best",
    "C123_monotone"
   ],
   "note": ""
  }
 ]
}