{
 "claims": [
  {
   "property": "C01",
   "status": "proved",
   "theorems": [
    "C01_active_set_views_agree"
   ],
   "note": "all histories; failed asserts and out-of-range reads are UB outcomes"
  },
  {
   "property": "C02",
   "status": "proved",
   "theorems": [
    "C02_active_set_counters_exact"
   ],
   "note": "int overflow of the counters not modelled"
  },
  {
   "property": "C03",
   "status": "proved",
   "theorems": [
    "C03_activate_frame",
    "C03_deactivate_frame"
   ],
   "note": "legality is an iff"
  },
  {
   "property": "C04",
   "status": "proved",
   "theorems": [
    "C04_construct_from_vector",
    "C04_rebuild_preserves"
   ],
   "note": ""
  },
  {
   "property": "C05",
   "status": "proved",
   "theorems": [
    "C05_changeLd",
    "C05_grow_exact_fit_asserts"
   ],
   "note": "finding 13"
  },
  {
   "property": "C06",
   "status": "proved",
   "theorems": [
    "C06_views_fit_after_any_history",
    "C06_workspace_resize"
   ],
   "note": "any history of public calls (construct, resize, solve, multipliers, resetActiveSet)"
  },
  {
   "property": "C07",
   "status": "proved",
   "theorems": [
    "C07_iteration_limit"
   ],
   "note": "generic in the arithmetic, so also for doubles; returning at all is totality of the model + C37"
  },
  {
   "property": "C08",
   "status": "proved",
   "theorems": [
    "C08_possible_statuses"
   ],
   "note": "stable dense solver; generic in the arithmetic"
  },
  {
   "property": "C09",
   "status": "proved",
   "theorems": [
    "C09_success_feasible",
    "C09_independence_needed",
    "C09_order_needed"
   ],
   "note": "exact arithmetic; the two *_needed theorems are counterexample runs showing that the provisos are necessary"
  },
  {
   "property": "C10",
   "status": "proved",
   "theorems": [
    "C10_success_optimal",
    "C10_ordering_needed"
   ],
   "note": "exact arithmetic, tolerance tests not misfiring (exact_tests); C44 replaces that by a condition on the data; C10_ordering_needed: SUCCESS at a feasible point that is not a minimum, with an equality not numbered first (finding 1)"
  },
  {
   "property": "C11",
   "status": "proved",
   "theorems": [
    "C11_objective_value"
   ],
   "note": ""
  },
  {
   "property": "C12",
   "status": "proved",
   "theorems": [
    "C12_equalities_kept",
    "C12_ordering_needed"
   ],
   "note": "C12_ordering_needed: run where an equality numbered second is dropped (finding 1)"
  },
  {
   "property": "C13",
   "status": "proved",
   "theorems": [
    "C13_infeasible_correct",
    "C13_ordering_needed"
   ],
   "note": "C13_ordering_needed: a feasible problem declared INFEASIBLE (finding 1)"
  },
  {
   "property": "C14",
   "status": "proved",
   "theorems": [
    "C14_multipliers_shape",
    "C14_multipliers_sign",
    "C14_ordering_needed"
   ],
   "note": "C14_ordering_needed: SUCCESS with a multiplier of the wrong sign, with an equality not numbered first (finding 1)"
  },
  {
   "property": "C15",
   "status": "proved",
   "theorems": [
    "C15_nonpos_iff"
   ],
   "note": "exact arithmetic"
  },
  {
   "property": "C16",
   "status": "proved",
   "theorems": [
    "C16_history_independent",
    "C16_defined_independent",
    "C16_nonpos_stale"
   ],
   "note": "generic in the arithmetic; C16_nonpos_stale shows the exception"
  },
  {
   "property": "C17",
   "status": "proved",
   "theorems": [
    "C17_initial_active_set",
    "C17_kinds",
    "C17_fixed_ignored",
    "C17_equality_not_ignored"
   ],
   "note": "generic in the arithmetic; C17_equality_not_ignored is a run on doubles (finding 7)"
  },
  {
   "property": "C18",
   "status": "proved",
   "theorems": [
    "C18_restart_from_optimal_set",
    "C18_restart_after_dense",
    "C18_restart_after_warm",
    "C18_for_ever"
   ],
   "note": "exact arithmetic; exact_qr excludes the denormal shortcut of the Householder reflections"
  },
  {
   "property": "C19",
   "status": "proved",
   "theorems": [
    "C19_tridiagonal_cholesky"
   ],
   "note": "exact arithmetic; any number and sizes of blocks, including empty ones"
  },
  {
   "property": "C20",
   "status": "proved",
   "theorems": [
    "C20_tridiagonal_solve",
    "C20_tridiagonal_transpose_solve",
    "C20_hints_irrelevant",
    "C20_tridiagonal_system"
   ],
   "note": "exact arithmetic"
  },
  {
   "property": "C21",
   "status": "proved",
   "theorems": [
    "C21_arrow_cholesky",
    "C21_arrow_solve",
    "C21_arrow_transpose_solve",
    "C21_arrow_system",
    "C21_up_solve_undefined"
   ],
   "note": "exact arithmetic; C21_up_solve_undefined is finding 6"
  },
  {
   "property": "C22",
   "status": "proved",
   "theorems": [
    "C22_tridiagonal_status",
    "C22_arrow_status",
    "C22_first_pivot_undetected"
   ],
   "note": "exact criterion; C22_first_pivot_undetected is finding 5"
  },
  {
   "property": "C23",
   "status": "proved",
   "theorems": [
    "C23_apply",
    "C23_apply_transpose",
    "C23_segment_variants",
    "C23_adjoint",
    "C23_orthogonal"
   ],
   "note": "exact arithmetic; histories of prepare/add calls on a fresh or cleared sequence"
  },
  {
   "property": "C24",
   "status": "proved",
   "theorems": [
    "C24_sizes",
    "C24_col",
    "C24_transposeMult"
   ],
   "note": "exact arithmetic; any number and sizes of blocks"
  },
  {
   "property": "C25",
   "status": "proved",
   "theorems": [
    "C25_factorisation_exact"
   ],
   "note": "stated for the state at any stop, hence for every iteration budget"
  },
  {
   "property": "C26",
   "status": "proved",
   "theorems": [
    "C26_sizes",
    "C26_accepts_only_near_kkt",
    "C26_exact_acceptance_is_optimal",
    "C26_exact_kkt_accepted",
    "C26_order_needed"
   ],
   "note": "exact arithmetic; finding 14"
  },
  {
   "property": "C27",
   "status": "proved",
   "theorems": [
    "C27_least_squares_objective",
    "C27_same_minimisers"
   ],
   "note": "the dropped term is half the squared norm of b"
  },
  {
   "property": "C28",
   "status": "proved",
   "theorems": [
    "C28_joint_of_separated",
    "C28_defined_iff"
   ],
   "note": ""
  },
  {
   "property": "C29",
   "status": "proved",
   "theorems": [
    "C29_undefined_with_constraints",
    "C29_no_constraint"
   ],
   "note": "the intended property (same feasible set) is refuted: finding 8"
  },
  {
   "property": "C30",
   "status": "proved",
   "theorems": [
    "C30_setFlag_bits",
    "C30_emitted_iff",
    "C30_stream",
    "C30_single_options",
    "C30_flags_never_cleared",
    "C30_startIter",
    "C30_option_flags",
    "C30_removed_added"
   ],
   "note": "flag logic only; finding 10"
  },
  {
   "property": "C31",
   "status": "proved",
   "theorems": [
    "C31_projection",
    "C31_success_iff_nonempty",
    "C31_default_options",
    "C31_initial_point",
    "C31_initial_multipliers",
    "C31_memory_safe",
    "C31_history_independent"
   ],
   "note": "projection and emptiness theorems over the reals, for entries of c outside the solver tolerance, with explicit limits: 2n+1 iterations and bigBnd >= K (n+3) 1e56 for data up to K (hence the default options for n <= 249, K <= 1e41); initial point, safety and history independence for any arithmetic"
  },
  {
   "property": "C32",
   "status": "proved",
   "theorems": [
    "C32_most_violated_selected",
    "C32_success_iff_none_violated"
   ],
   "note": ""
  },
  {
   "property": "C33",
   "status": "proved",
   "theorems": [
    "C33_dual_feasible_every_iteration"
   ],
   "note": ""
  },
  {
   "property": "C34",
   "status": "proved",
   "theorems": [
    "C34_constraint_normal_dense"
   ],
   "note": ""
  },
  {
   "property": "C35",
   "status": "proved",
   "theorems": [
    "C35_dense_expansion"
   ],
   "note": ""
  },
  {
   "property": "C36",
   "status": "proved",
   "theorems": [
    "C36_terminates",
    "C36_objective_monotone",
    "C36_objective_strict"
   ],
   "note": "budget m + 2*3^m for m constraints and bounds"
  },
  {
   "property": "C37",
   "status": "proved",
   "theorems": [
    "C37_solve_memory_safe",
    "C37_accessors_safe",
    "C37_double",
    "C37_overflow"
   ],
   "note": "an iff; C37_double is the instance for IEEE doubles; C37_overflow a run with 2 equalities in dimension 1"
  },
  {
   "property": "C38",
   "status": "proved",
   "theorems": [
    "C38_conversion_drops_constant",
    "C38_separated_to_joint"
   ],
   "note": "finding 9"
  },
  {
   "property": "C39",
   "status": "proved",
   "theorems": [
    "C39_status_names",
    "C39_statuses"
   ],
   "note": ""
  },
  {
   "property": "C40",
   "status": "proved",
   "theorems": [
    "C40_announced_solution",
    "C40_minimiser",
    "C40_passes_testKKT",
    "C40_well_formed",
    "C40_end_to_end",
    "C40_too_few_rows_undefined",
    "C40_independent_rows_wrong",
    "C40_strict_needs_one",
    "C40_shared_rank_undefined",
    "C40_double_sided_wrong",
    "C40_ordinary_draws"
   ],
   "note": "exact arithmetic; ColPivHouseholderQR is a parameter assumed to return a pivoted QR factorisation; holds when [A; strongly active rows] has at least as many rows as variables and the announced rank, refuted otherwise (finding 16)"
  },
  {
   "property": "C41",
   "status": "proved",
   "theorems": [
    "C41_multipliers_after_reset",
    "C41_history_dependent"
   ],
   "note": "exact characterisation, plus a run showing that the history matters"
  },
  {
   "property": "C42",
   "status": "proved",
   "theorems": [
    "C42_hessian_overwritten",
    "C42_upper_triangle_ignored"
   ],
   "note": ""
  },
  {
   "property": "C43",
   "status": "proved",
   "theorems": [
    "C43_objective_lower_bound"
   ],
   "note": ""
  },
  {
   "property": "C44",
   "status": "proved",
   "theorems": [
    "C44_total_correctness",
    "C44_explicit_limit",
    "C44_limit_exists"
   ],
   "note": "no hypothesis on the run, only on the data; C44_limit_exists: the limit of C44_explicit_limit exists for every positive definite problem"
  },
  {
   "property": "C45",
   "status": "proved",
   "theorems": [
    "C45_wellFormed_iff",
    "C45_transposed_rejected",
    "C45_not_transposed"
   ],
   "note": "finding 9"
  },
  {
   "property": "C46",
   "status": "proved",
   "theorems": [
    "C46_warm_memory_safe",
    "C46_double"
   ],
   "note": "generic in the arithmetic, exact characterisation (iff)"
  },
  {
   "property": "C47",
   "status": "proved",
   "theorems": [
    "C47_success_feasible",
    "C47_success_optimal",
    "C47_infeasible_correct",
    "C47_bounds_later_needed",
    "C47_ordering_needed",
    "C47_independence_needed"
   ],
   "note": "exact arithmetic, tolerances not misfiring; the *_needed theorems are runs on doubles (finding 18)"
  },
  {
   "property": "C48",
   "status": "proved",
   "theorems": [
    "C48_same_answer",
    "C48_warm_dense_same_answer"
   ],
   "note": ""
  },
  {
   "property": "C49",
   "status": "proved",
   "theorems": [
    "C49_warm_total_correctness",
    "C49_explicit_limit"
   ],
   "note": "no hypothesis on the run, only on the data and the statuses"
  },
  {
   "property": "C50",
   "status": "proved",
   "theorems": [
    "C50_block_agrees",
    "C50_block_exact",
    "C50_block_total_correctness",
    "C50_equality_never_solved",
    "C50_warm_start_never_solved",
    "C50_equality_asserts"
   ],
   "note": "exact arithmetic; C50_block_agrees also covers the denormal shortcut of makeHouseholder (a flag tells whether it fired); the last three theorems are finding 11"
  },
  {
   "property": "C51",
   "status": "proved",
   "theorems": [
    "C51_first_call",
    "C51_later_call",
    "C51_needs_first_matrices",
    "C51_same_object",
    "C51_second_call_uses_factor",
    "C51_frame",
    "C51_second_solve_wrong"
   ],
   "note": "any arithmetic; finding 20; C51_second_solve_wrong is a run on doubles"
  },
  {
   "property": "C52",
   "status": "proved",
   "theorems": [
    "C52_feasible",
    "C52_active",
    "C52_inactive",
    "C52_solved",
    "C52_level",
    "C52_box_from_draws",
    "C52_not_well_formed"
   ],
   "note": "exact arithmetic; C52_not_well_formed is finding 21"
  },
  {
   "property": "C53",
   "status": "proved",
   "theorems": [
    "C53_orthogonal",
    "C53_determinant",
    "C53_both_signs"
   ],
   "note": "exact arithmetic, all draws, including degenerate ones; the distribution is not modelled"
  },
  {
   "property": "C54",
   "status": "proved",
   "theorems": [
    "C54_defined",
    "C54_default",
    "C54_rank_at_most",
    "C54_rank_exact"
   ],
   "note": "exact arithmetic"
  },
  {
   "property": "C55",
   "status": "proved",
   "theorems": [
    "C55_ranks",
    "C55_defined",
    "C40_ordinary_draws"
   ],
   "note": "exact arithmetic"
  },
  {
   "property": "C56",
   "status": "proved",
   "theorems": [
    "C56_eigen_quadprog",
    "C56_eiquadprog",
    "C56_lssol",
    "C56_qld",
    "C56_only_well_formed"
   ],
   "note": "exact arithmetic; +inf lower and -inf upper bounds are not represented"
  },
  {
   "property": "C57",
   "status": "proved",
   "theorems": [
    "C57_same_problem",
    "C57_solves_original",
    "C57_flag_not_updated"
   ],
   "note": "exact arithmetic; C57_flag_not_updated is finding 22"
  },
  {
   "property": "C58",
   "status": "proved",
   "theorems": [
    "C58_reads",
    "C58_second_read_fails",
    "C58_infinite_bound_refused",
    "C58_upper_triangle_lost",
    "C58_ranged_equality_counted"
   ],
   "note": "values are exact; the extraction of a double is a parameter assumed to read a word that denotes a number up to the next blank; the other theorems are findings 24-27"
  },
  {
   "property": "C59",
   "status": "proved",
   "theorems": [
    "C59_never_undefined",
    "C59_undefined_exactly",
    "C59_blank_line_undefined",
    "C59_refuses",
    "C59_misplaced_data",
    "C59_malformed"
   ],
   "note": "for every number parser; NaN and infinite values written in the file are not represented; finding 23"
  },
  {
   "property": "C60",
   "status": "proved",
   "theorems": [
    "C60_toMatlab",
    "C60_empty",
    "C60_injective",
    "C60_active_set",
    "C60_selected",
    "C60_status_values"
   ],
   "note": "Numbers are what the stream prints (show); precision is the stream's. The reading of Matlab text is specified in MatlabSpec.v."
  },
  {
   "property": "C61",
   "status": "proved",
   "theorems": [
    "C61_log",
    "C61_comment",
    "C61_startIter",
    "C61_subLog",
    "C61_reading_back",
    "C61_iteration",
    "C61_before_first_iteration",
    "C61_structured_input"
   ],
   "note": "Session semantics over any number of loggers and streams; findings 28-30."
  },
  {
   "property": "C62",
   "status": "proved",
   "theorems": [
    "C62_reuse",
    "C62_hot_start",
    "C62_other_sizes",
    "C62_defined"
   ],
   "note": "Two-run (non-interference) proof for any arithmetic satisfying safe_ops, including doubles. C62_defined excludes a given EQUALITY on a constraint without lower side (model restriction of C46)."
  },
  {
   "property": "C63",
   "status": "proved",
   "theorems": [
    "C63_never_undefined",
    "C63_undefined_exactly",
    "C63_statuses"
   ],
   "note": "Any arithmetic satisfying usable (shown for reals and for doubles: usable_real, usable_float). The Hessian is a value: first call on the matrices (later calls: C51)."
  },
  {
   "property": "C64",
   "status": "proved",
   "theorems": [
    "C64_success_double",
    "C64_success_double_warm",
    "C64_success_double_block",
    "C64_success_double_box",
    "C64_inactive_multiplier",
    "C64_inactive_multiplier_block",
    "C64_active_not_covered",
    "C64_nan_succeeds"
   ],
   "note": "Arithmetic: Dw wo = binary64 of Flocq, rounding to nearest even, sums in any order wo. Stable and warm-startable dense solvers, block solver (the error is that of one block), box solver."
  },
  {
   "property": "C65",
   "status": "proved",
   "theorems": [
    "C65_accepted_double",
    "C65_rejected_double",
    "C65_nan_hessian_accepted",
    "C65_accepted_experimental",
    "C65_rejected_experimental",
    "C65_same_verdict"
   ],
   "note": "Arithmetic: Dw wo = binary64 of Flocq, sums in any order wo; divisions by the pivot (Eigen's blocked variant, from 32 rows on, multiplies some entries by the reciprocal instead)."
  },
  {
   "property": "C66",
   "status": "proved",
   "theorems": [
    "C66_reuse",
    "C66_reuse_defined"
   ],
   "note": "Two-run (non-interference) proof. C66_reuse holds for every ops record; C66_reuse_defined needs the laws of C63 (usable), which reals and doubles satisfy."
  },
  {
   "property": "C67",
   "status": "proved",
   "theorems": [
    "C67_hessian_consumed",
    "C67_second_answer_wrong",
    "C67_identity_harmless"
   ],
   "note": "C67_second_answer_wrong is a literal run in doubles, beside the general theorem."
  },
  {
   "property": "C68",
   "status": "proved",
   "theorems": [
    "C68_benchmark_loop",
    "C68_ws_problem",
    "C68_rotation",
    "C68_path",
    "C68_choice",
    "C68_assert_one_sided"
   ],
   "note": "Exact arithmetic; maxIter must exceed the (exponential) bound of C44. Values that are not numbers are explicit (None). The other solvers of the benchmark are not modelled."
  },
  {
   "property": "C69",
   "status": "proved",
   "theorems": [
    "C69_unconstrained_double",
    "C69_near_minimal_double",
    "C69_objective_double"
   ],
   "note": "Arithmetic: Dw wo = binary64 of Flocq, sums in any order wo. Covers calls that end at the first pass without equality constraints; later steps only have C64."
  },
  {
   "property": "C70",
   "status": "proved",
   "theorems": [
    "C70_prices",
    "C70_between_prices",
    "C70_linear_cost"
   ],
   "note": "Exact arithmetic, hypotheses of C44."
  },
  {
   "property": "C71",
   "status": "proved",
   "theorems": [
    "C71_same_answer",
    "C71_permuted",
    "C71_negated",
    "C71_bounds_as_constraints",
    "C71_split",
    "C71_scaled_constraints",
    "C71_scaled_cost"
   ],
   "note": "Exact arithmetic, hypotheses of C44."
  },
  {
   "property": "C72",
   "status": "proved",
   "theorems": [
    "C72_same_steps",
    "C72_no_equalities",
    "C72_both_kinds_differ"
   ],
   "note": "Exact arithmetic (bit for bit the two differ: x is computed by different formulas)."
  },
  {
   "property": "C73",
   "status": "proved",
   "theorems": [
    "C73_stable_solver",
    "C73_default_options",
    "C73_warm_solver"
   ],
   "note": "Exact arithmetic; removes the tolerance hypotheses of C44 and C49 for data with few digits (integers, decimals). The hypotheses of C49 on the starting set (warm_ok) remain."
  },
  {
   "property": "C74",
   "status": "proved",
   "theorems": [
    "C74_random_test_passes",
    "C74_experimental",
    "C74_warm_start"
   ],
   "note": "exact arithmetic; both dense solvers and the warm-start test; hypotheses on the drawn problem: full column rank, independent saturated normals, no fixed variable, tolerance_gap"
  },
  {
   "property": "C75",
   "status": "proved",
   "theorems": [
    "C75_sizes_exact",
    "C75_one_request",
    "C75_views_exact",
    "C75_overflow_iff",
    "C75_wraps_out_of_bounds",
    "C75_nothing_allocated"
   ],
   "note": "sizes of the stable dense solver; the index computations of Eigen are 64-bit and not part of it"
  },
  {
   "property": "C76",
   "status": "proved",
   "theorems": [
    "C76_reads",
    "C76_truncated_refused",
    "C76_sizes",
    "C76_prefix",
    "C76_title_iff",
    "C76_title_prefix",
    "C76_matrix_file",
    "C76_matrix_file_undefined"
   ],
   "note": "opening the file and memory exhaustion not modelled"
  },
  {
   "property": "C77",
   "status": "proved",
   "theorems": [
    "C77_generators",
    "C77_every_matrix",
    "C77_tridiagonal_test",
    "C77_arrow_test",
    "C77_start_ignored",
    "C77_block_solver_tests",
    "C77_scan",
    "C77_scan_gaps",
    "C77_nonvacuous"
   ],
   "note": "exact real arithmetic; the tests compare with a tolerance (1e-8, 1e-6); setRandom is any draw"
  },
  {
   "property": "C78",
   "status": "proved",
   "theorems": [
    "C78_when_allocated",
    "C78_active_set",
    "C78_realtime",
    "C78_memory",
    "C78_refinement",
    "C78_solver",
    "C78_keeps_buffers"
   ],
   "note": "members of the solver only: temporaries of Eigen, the logger and the caller are not modelled; the link to the solver model (C78_refinement, C78_solver) is for the stable solver, the experimental one is covered by the memory model only"
  },
  {
   "property": "C79",
   "status": "proved",
   "theorems": [
    "C79_stable",
    "C79_experimental",
    "C79_block",
    "C79_numbers",
    "C79_failed",
    "C79_one_more",
    "C79_one_more_experimental",
    "C79_one_more_block"
   ],
   "note": "for every arithmetic; in the experimental solver the start may use more iterations than the limit (stated in C79_one_more_experimental)"
  }
 ]
}