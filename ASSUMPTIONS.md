# Print Assumptions of every theorem in MANIFEST.json

* `C01_active_set_views_agree`: closed under the global context
* `C02_active_set_counters_exact`: closed under the global context
* `C03_activate_frame`: closed under the global context
* `C03_deactivate_frame`: closed under the global context
* `C04_construct_from_vector`: closed under the global context
* `C04_rebuild_preserves`: closed under the global context
* `C05_changeLd`: closed under the global context
* `C05_grow_exact_fit_asserts`: closed under the global context
* `C06_views_fit_after_any_history`: closed under the global context
* `C06_workspace_resize`: closed under the global context
* `C07_iteration_limit`: closed under the global context
* `C08_possible_statuses`: closed under the global context
* `C09_independence_needed`: PrimFloat.sub, PrimFloat.sqrt, PrimFloat.opp, PrimFloat.mul, PrimFloat.ltb, PrimFloat.leb, PrimFloat.float, PrimFloat.eqb, PrimFloat.div, PrimFloat.add, PrimFloat.abs
* `C09_order_needed`: PrimFloat.sub, PrimFloat.sqrt, PrimFloat.opp, PrimFloat.mul, PrimFloat.ltb, PrimFloat.leb, PrimFloat.float, PrimFloat.eqb, PrimFloat.div, PrimFloat.add, PrimFloat.abs
* `C09_success_feasible`: ClassicalDedekindReals.sig_not_dec, ClassicalDedekindReals.sig_forall_dec, FunctionalExtensionality.functional_extensionality_dep
* `C10_ordering_needed`: PrimFloat.sub, PrimFloat.sqrt, PrimFloat.opp, PrimFloat.mul, PrimFloat.ltb, PrimFloat.leb, PrimFloat.float, PrimFloat.eqb, PrimFloat.div, PrimFloat.add, PrimFloat.abs
* `C10_success_optimal`: ClassicalDedekindReals.sig_not_dec, ClassicalDedekindReals.sig_forall_dec, FunctionalExtensionality.functional_extensionality_dep
* `C11_objective_value`: ClassicalDedekindReals.sig_not_dec, ClassicalDedekindReals.sig_forall_dec, FunctionalExtensionality.functional_extensionality_dep
* `C12_equalities_kept`: closed under the global context
* `C12_ordering_needed`: PrimFloat.sub, PrimFloat.sqrt, PrimFloat.opp, PrimFloat.mul, PrimFloat.ltb, PrimFloat.leb, PrimFloat.float, PrimFloat.eqb, PrimFloat.div, PrimFloat.add
* `C13_infeasible_correct`: ClassicalDedekindReals.sig_not_dec, ClassicalDedekindReals.sig_forall_dec, FunctionalExtensionality.functional_extensionality_dep
* `C13_ordering_needed`: PrimFloat.sub, PrimFloat.sqrt, PrimFloat.opp, PrimFloat.mul, PrimFloat.ltb, PrimFloat.leb, PrimFloat.float, PrimFloat.eqb, PrimFloat.div, PrimFloat.add
* `C14_multipliers_shape`: ClassicalDedekindReals.sig_not_dec, ClassicalDedekindReals.sig_forall_dec, FunctionalExtensionality.functional_extensionality_dep
* `C14_multipliers_sign`: ClassicalDedekindReals.sig_not_dec, ClassicalDedekindReals.sig_forall_dec, FunctionalExtensionality.functional_extensionality_dep
* `C14_ordering_needed`: PrimFloat.sub, PrimFloat.sqrt, PrimFloat.opp, PrimFloat.mul, PrimFloat.ltb, PrimFloat.leb, PrimFloat.float, PrimFloat.eqb, PrimFloat.div, PrimFloat.add
* `C15_nonpos_iff`: ClassicalDedekindReals.sig_not_dec, ClassicalDedekindReals.sig_forall_dec, FunctionalExtensionality.functional_extensionality_dep
* `C16_defined_independent`: closed under the global context
* `C16_history_independent`: FunctionalExtensionality.functional_extensionality_dep
* `C16_nonpos_stale`: PrimFloat.sub, PrimFloat.sqrt, PrimFloat.opp, PrimFloat.mul, PrimFloat.ltb, PrimFloat.leb, PrimFloat.float, PrimFloat.eqb, PrimFloat.div, PrimFloat.add
* `C17_equality_not_ignored`: PrimFloat.sub, PrimFloat.sqrt, PrimFloat.opp, PrimFloat.mul, PrimFloat.ltb, PrimFloat.leb, PrimFloat.float, PrimFloat.eqb, PrimFloat.div, PrimFloat.add, PrimFloat.abs
* `C17_fixed_ignored`: closed under the global context
* `C17_initial_active_set`: closed under the global context
* `C17_kinds`: closed under the global context
* `C18_for_ever`: ClassicalDedekindReals.sig_not_dec, ClassicalDedekindReals.sig_forall_dec, FunctionalExtensionality.functional_extensionality_dep
* `C18_restart_after_dense`: ClassicalDedekindReals.sig_not_dec, ClassicalDedekindReals.sig_forall_dec, FunctionalExtensionality.functional_extensionality_dep
* `C18_restart_after_warm`: ClassicalDedekindReals.sig_not_dec, ClassicalDedekindReals.sig_forall_dec, FunctionalExtensionality.functional_extensionality_dep
* `C18_restart_from_optimal_set`: ClassicalDedekindReals.sig_not_dec, ClassicalDedekindReals.sig_forall_dec, FunctionalExtensionality.functional_extensionality_dep
* `C19_tridiagonal_cholesky`: ClassicalDedekindReals.sig_not_dec, ClassicalDedekindReals.sig_forall_dec, FunctionalExtensionality.functional_extensionality_dep
* `C20_hints_irrelevant`: ClassicalDedekindReals.sig_not_dec, ClassicalDedekindReals.sig_forall_dec, FunctionalExtensionality.functional_extensionality_dep
* `C20_tridiagonal_solve`: ClassicalDedekindReals.sig_not_dec, ClassicalDedekindReals.sig_forall_dec, FunctionalExtensionality.functional_extensionality_dep
* `C20_tridiagonal_system`: ClassicalDedekindReals.sig_not_dec, ClassicalDedekindReals.sig_forall_dec, FunctionalExtensionality.functional_extensionality_dep
* `C20_tridiagonal_transpose_solve`: ClassicalDedekindReals.sig_not_dec, ClassicalDedekindReals.sig_forall_dec, FunctionalExtensionality.functional_extensionality_dep
* `C21_arrow_cholesky`: ClassicalDedekindReals.sig_not_dec, ClassicalDedekindReals.sig_forall_dec, FunctionalExtensionality.functional_extensionality_dep
* `C21_arrow_solve`: ClassicalDedekindReals.sig_not_dec, ClassicalDedekindReals.sig_forall_dec, FunctionalExtensionality.functional_extensionality_dep
* `C21_arrow_system`: ClassicalDedekindReals.sig_not_dec, ClassicalDedekindReals.sig_forall_dec, FunctionalExtensionality.functional_extensionality_dep
* `C21_arrow_transpose_solve`: ClassicalDedekindReals.sig_not_dec, ClassicalDedekindReals.sig_forall_dec, FunctionalExtensionality.functional_extensionality_dep
* `C21_up_solve_undefined`: ClassicalDedekindReals.sig_not_dec, ClassicalDedekindReals.sig_forall_dec, FunctionalExtensionality.functional_extensionality_dep
* `C22_arrow_status`: ClassicalDedekindReals.sig_not_dec, ClassicalDedekindReals.sig_forall_dec, FunctionalExtensionality.functional_extensionality_dep
* `C22_first_pivot_undetected`: ClassicalDedekindReals.sig_not_dec, ClassicalDedekindReals.sig_forall_dec, FunctionalExtensionality.functional_extensionality_dep
* `C22_tridiagonal_status`: ClassicalDedekindReals.sig_not_dec, ClassicalDedekindReals.sig_forall_dec, FunctionalExtensionality.functional_extensionality_dep
* `C23_adjoint`: ClassicalDedekindReals.sig_not_dec, ClassicalDedekindReals.sig_forall_dec, FunctionalExtensionality.functional_extensionality_dep
* `C23_apply`: ClassicalDedekindReals.sig_not_dec, ClassicalDedekindReals.sig_forall_dec, FunctionalExtensionality.functional_extensionality_dep
* `C23_apply_transpose`: ClassicalDedekindReals.sig_not_dec, ClassicalDedekindReals.sig_forall_dec, FunctionalExtensionality.functional_extensionality_dep
* `C23_orthogonal`: ClassicalDedekindReals.sig_not_dec, ClassicalDedekindReals.sig_forall_dec, FunctionalExtensionality.functional_extensionality_dep
* `C23_segment_variants`: ClassicalDedekindReals.sig_not_dec, ClassicalDedekindReals.sig_forall_dec, FunctionalExtensionality.functional_extensionality_dep
* `C24_col`: ClassicalDedekindReals.sig_not_dec, ClassicalDedekindReals.sig_forall_dec, FunctionalExtensionality.functional_extensionality_dep
* `C24_sizes`: ClassicalDedekindReals.sig_not_dec, ClassicalDedekindReals.sig_forall_dec, FunctionalExtensionality.functional_extensionality_dep
* `C24_transposeMult`: ClassicalDedekindReals.sig_not_dec, ClassicalDedekindReals.sig_forall_dec, FunctionalExtensionality.functional_extensionality_dep
* `C25_factorisation_exact`: ClassicalDedekindReals.sig_not_dec, ClassicalDedekindReals.sig_forall_dec, FunctionalExtensionality.functional_extensionality_dep
* `C26_accepts_only_near_kkt`: ClassicalDedekindReals.sig_not_dec, ClassicalDedekindReals.sig_forall_dec, FunctionalExtensionality.functional_extensionality_dep
* `C26_exact_acceptance_is_optimal`: ClassicalDedekindReals.sig_not_dec, ClassicalDedekindReals.sig_forall_dec, FunctionalExtensionality.functional_extensionality_dep
* `C26_exact_kkt_accepted`: ClassicalDedekindReals.sig_not_dec, ClassicalDedekindReals.sig_forall_dec, FunctionalExtensionality.functional_extensionality_dep
* `C26_order_needed`: ClassicalDedekindReals.sig_not_dec, ClassicalDedekindReals.sig_forall_dec, FunctionalExtensionality.functional_extensionality_dep
* `C26_sizes`: ClassicalDedekindReals.sig_not_dec, ClassicalDedekindReals.sig_forall_dec, FunctionalExtensionality.functional_extensionality_dep
* `C27_least_squares_objective`: ClassicalDedekindReals.sig_not_dec, ClassicalDedekindReals.sig_forall_dec, FunctionalExtensionality.functional_extensionality_dep
* `C27_same_minimisers`: ClassicalDedekindReals.sig_not_dec, ClassicalDedekindReals.sig_forall_dec, FunctionalExtensionality.functional_extensionality_dep
* `C28_defined_iff`: ClassicalDedekindReals.sig_forall_dec, FunctionalExtensionality.functional_extensionality_dep
* `C28_joint_of_separated`: ClassicalDedekindReals.sig_not_dec, ClassicalDedekindReals.sig_forall_dec, FunctionalExtensionality.functional_extensionality_dep
* `C29_no_constraint`: ClassicalDedekindReals.sig_not_dec, ClassicalDedekindReals.sig_forall_dec, FunctionalExtensionality.functional_extensionality_dep
* `C29_undefined_with_constraints`: ClassicalDedekindReals.sig_forall_dec, FunctionalExtensionality.functional_extensionality_dep
* `C30_emitted_iff`: closed under the global context
* `C30_flags_never_cleared`: closed under the global context
* `C30_option_flags`: closed under the global context
* `C30_removed_added`: closed under the global context
* `C30_setFlag_bits`: closed under the global context
* `C30_single_options`: closed under the global context
* `C30_startIter`: closed under the global context
* `C30_stream`: closed under the global context
* `C31_default_options`: ClassicalDedekindReals.sig_not_dec, ClassicalDedekindReals.sig_forall_dec, FunctionalExtensionality.functional_extensionality_dep
* `C31_history_independent`: FunctionalExtensionality.functional_extensionality_dep
* `C31_initial_multipliers`: ClassicalDedekindReals.sig_not_dec, ClassicalDedekindReals.sig_forall_dec, FunctionalExtensionality.functional_extensionality_dep
* `C31_initial_point`: FunctionalExtensionality.functional_extensionality_dep
* `C31_memory_safe`: FunctionalExtensionality.functional_extensionality_dep
* `C31_projection`: ClassicalDedekindReals.sig_not_dec, ClassicalDedekindReals.sig_forall_dec, FunctionalExtensionality.functional_extensionality_dep
* `C31_success_iff_nonempty`: ClassicalDedekindReals.sig_not_dec, ClassicalDedekindReals.sig_forall_dec, FunctionalExtensionality.functional_extensionality_dep
* `C32_most_violated_selected`: ClassicalDedekindReals.sig_not_dec, ClassicalDedekindReals.sig_forall_dec, FunctionalExtensionality.functional_extensionality_dep
* `C32_success_iff_none_violated`: ClassicalDedekindReals.sig_not_dec, ClassicalDedekindReals.sig_forall_dec, FunctionalExtensionality.functional_extensionality_dep
* `C33_dual_feasible_every_iteration`: ClassicalDedekindReals.sig_not_dec, ClassicalDedekindReals.sig_forall_dec, FunctionalExtensionality.functional_extensionality_dep
* `C34_constraint_normal_dense`: ClassicalDedekindReals.sig_not_dec, ClassicalDedekindReals.sig_forall_dec, FunctionalExtensionality.functional_extensionality_dep
* `C35_dense_expansion`: ClassicalDedekindReals.sig_not_dec, ClassicalDedekindReals.sig_forall_dec, FunctionalExtensionality.functional_extensionality_dep
* `C36_objective_monotone`: ClassicalDedekindReals.sig_not_dec, ClassicalDedekindReals.sig_forall_dec, FunctionalExtensionality.functional_extensionality_dep
* `C36_objective_strict`: ClassicalDedekindReals.sig_not_dec, ClassicalDedekindReals.sig_forall_dec, FunctionalExtensionality.functional_extensionality_dep
* `C36_terminates`: ClassicalDedekindReals.sig_not_dec, ClassicalDedekindReals.sig_forall_dec, FunctionalExtensionality.functional_extensionality_dep
* `C37_accessors_safe`: closed under the global context
* `C37_double`: PrimFloat.sub, PrimFloat.sqrt, PrimFloat.opp, PrimFloat.normfr_mantissa, PrimFloat.mul, FloatAxioms.ltb_spec, PrimFloat.ltb, PrimInt63.lsr, PrimFloat.leb, PrimInt63.land, PrimInt63.int, PrimFloat.frshiftexp, PrimFloat.float, FloatAxioms.eqb_spec, PrimInt63.eqb, PrimFloat.eqb, PrimFloat.div, PrimFloat.add, PrimFloat.abs
* `C37_overflow`: PrimFloat.sub, PrimFloat.sqrt, PrimFloat.opp, PrimFloat.mul, PrimFloat.ltb, PrimFloat.leb, PrimFloat.float, PrimFloat.eqb, PrimFloat.div, PrimFloat.add
* `C37_solve_memory_safe`: closed under the global context
* `C38_conversion_drops_constant`: ClassicalDedekindReals.sig_not_dec, ClassicalDedekindReals.sig_forall_dec, FunctionalExtensionality.functional_extensionality_dep
* `C38_separated_to_joint`: ClassicalDedekindReals.sig_not_dec, ClassicalDedekindReals.sig_forall_dec, FunctionalExtensionality.functional_extensionality_dep
* `C39_status_names`: closed under the global context
* `C39_statuses`: closed under the global context
* `C40_announced_solution`: ClassicalDedekindReals.sig_not_dec, ClassicalDedekindReals.sig_forall_dec, FunctionalExtensionality.functional_extensionality_dep
* `C40_double_sided_wrong`: ClassicalDedekindReals.sig_not_dec, ClassicalDedekindReals.sig_forall_dec, FunctionalExtensionality.functional_extensionality_dep
* `C40_end_to_end`: ClassicalDedekindReals.sig_not_dec, ClassicalDedekindReals.sig_forall_dec, FunctionalExtensionality.functional_extensionality_dep
* `C40_independent_rows_wrong`: ClassicalDedekindReals.sig_not_dec, ClassicalDedekindReals.sig_forall_dec, FunctionalExtensionality.functional_extensionality_dep
* `C40_minimiser`: ClassicalDedekindReals.sig_not_dec, ClassicalDedekindReals.sig_forall_dec, FunctionalExtensionality.functional_extensionality_dep
* `C40_ordinary_draws`: ClassicalDedekindReals.sig_not_dec, ClassicalDedekindReals.sig_forall_dec, FunctionalExtensionality.functional_extensionality_dep
* `C40_passes_testKKT`: ClassicalDedekindReals.sig_not_dec, ClassicalDedekindReals.sig_forall_dec, FunctionalExtensionality.functional_extensionality_dep
* `C40_shared_rank_undefined`: ClassicalDedekindReals.sig_not_dec, ClassicalDedekindReals.sig_forall_dec, FunctionalExtensionality.functional_extensionality_dep
* `C40_strict_needs_one`: ClassicalDedekindReals.sig_not_dec, ClassicalDedekindReals.sig_forall_dec, FunctionalExtensionality.functional_extensionality_dep
* `C40_too_few_rows_undefined`: ClassicalDedekindReals.sig_not_dec, ClassicalDedekindReals.sig_forall_dec, FunctionalExtensionality.functional_extensionality_dep
* `C40_well_formed`: ClassicalDedekindReals.sig_not_dec, ClassicalDedekindReals.sig_forall_dec, FunctionalExtensionality.functional_extensionality_dep
* `C41_history_dependent`: PrimFloat.sub, PrimFloat.sqrt, PrimFloat.opp, PrimFloat.normfr_mantissa, PrimFloat.mul, FloatAxioms.ltb_spec, PrimFloat.ltb, PrimInt63.lsr, PrimFloat.leb, PrimInt63.land, PrimInt63.int, PrimFloat.frshiftexp, PrimFloat.float, FloatAxioms.eqb_spec, PrimInt63.eqb, PrimFloat.eqb, PrimFloat.div, PrimFloat.add, PrimFloat.abs
* `C41_multipliers_after_reset`: closed under the global context
* `C42_hessian_overwritten`: ClassicalDedekindReals.sig_not_dec, ClassicalDedekindReals.sig_forall_dec, FunctionalExtensionality.functional_extensionality_dep
* `C42_upper_triangle_ignored`: FunctionalExtensionality.functional_extensionality_dep
* `C43_objective_lower_bound`: ClassicalDedekindReals.sig_not_dec, ClassicalDedekindReals.sig_forall_dec, FunctionalExtensionality.functional_extensionality_dep
* `C44_explicit_limit`: ClassicalDedekindReals.sig_not_dec, ClassicalDedekindReals.sig_forall_dec, FunctionalExtensionality.functional_extensionality_dep
* `C44_limit_exists`: ClassicalDedekindReals.sig_not_dec, ClassicalDedekindReals.sig_forall_dec, FunctionalExtensionality.functional_extensionality_dep, Classical_Prop.classic
* `C44_total_correctness`: ClassicalDedekindReals.sig_not_dec, ClassicalDedekindReals.sig_forall_dec, FunctionalExtensionality.functional_extensionality_dep
* `C45_not_transposed`: ClassicalDedekindReals.sig_forall_dec, FunctionalExtensionality.functional_extensionality_dep
* `C45_transposed_rejected`: ClassicalDedekindReals.sig_forall_dec, FunctionalExtensionality.functional_extensionality_dep
* `C45_wellFormed_iff`: ClassicalDedekindReals.sig_forall_dec, FunctionalExtensionality.functional_extensionality_dep
* `C46_double`: PrimFloat.sub, PrimFloat.sqrt, PrimFloat.opp, PrimFloat.normfr_mantissa, PrimFloat.mul, FloatAxioms.ltb_spec, PrimFloat.ltb, PrimInt63.lsr, PrimFloat.leb, PrimInt63.land, PrimInt63.int, PrimFloat.frshiftexp, PrimFloat.float, FloatAxioms.eqb_spec, PrimInt63.eqb, PrimFloat.eqb, PrimFloat.div, PrimFloat.add, PrimFloat.abs
* `C46_warm_memory_safe`: closed under the global context
* `C47_bounds_later_needed`: PrimFloat.sub, PrimFloat.sqrt, PrimFloat.opp, PrimFloat.mul, PrimFloat.ltb, PrimFloat.leb, PrimFloat.float, PrimFloat.eqb, PrimFloat.div, PrimFloat.add, PrimFloat.abs
* `C47_independence_needed`: PrimFloat.sub, PrimFloat.sqrt, PrimFloat.opp, PrimFloat.mul, PrimFloat.ltb, PrimFloat.leb, PrimFloat.float, PrimFloat.eqb, PrimFloat.div, PrimFloat.add
* `C47_infeasible_correct`: ClassicalDedekindReals.sig_not_dec, ClassicalDedekindReals.sig_forall_dec, FunctionalExtensionality.functional_extensionality_dep
* `C47_ordering_needed`: PrimFloat.sub, PrimFloat.sqrt, PrimFloat.opp, PrimFloat.mul, PrimFloat.ltb, PrimFloat.leb, PrimFloat.float, PrimFloat.eqb, PrimFloat.div, PrimFloat.add, PrimFloat.abs
* `C47_success_feasible`: ClassicalDedekindReals.sig_not_dec, ClassicalDedekindReals.sig_forall_dec, FunctionalExtensionality.functional_extensionality_dep
* `C47_success_optimal`: ClassicalDedekindReals.sig_not_dec, ClassicalDedekindReals.sig_forall_dec, FunctionalExtensionality.functional_extensionality_dep
* `C48_same_answer`: ClassicalDedekindReals.sig_not_dec, ClassicalDedekindReals.sig_forall_dec, FunctionalExtensionality.functional_extensionality_dep
* `C48_warm_dense_same_answer`: ClassicalDedekindReals.sig_not_dec, ClassicalDedekindReals.sig_forall_dec, FunctionalExtensionality.functional_extensionality_dep
* `C49_explicit_limit`: ClassicalDedekindReals.sig_not_dec, ClassicalDedekindReals.sig_forall_dec, FunctionalExtensionality.functional_extensionality_dep
* `C49_warm_total_correctness`: ClassicalDedekindReals.sig_not_dec, ClassicalDedekindReals.sig_forall_dec, FunctionalExtensionality.functional_extensionality_dep
* `C50_block_agrees`: ClassicalDedekindReals.sig_not_dec, ClassicalDedekindReals.sig_forall_dec, FunctionalExtensionality.functional_extensionality_dep
* `C50_block_exact`: ClassicalDedekindReals.sig_not_dec, ClassicalDedekindReals.sig_forall_dec, FunctionalExtensionality.functional_extensionality_dep
* `C50_block_total_correctness`: ClassicalDedekindReals.sig_not_dec, ClassicalDedekindReals.sig_forall_dec, FunctionalExtensionality.functional_extensionality_dep, Classical_Prop.classic
* `C50_equality_asserts`: ClassicalDedekindReals.sig_not_dec, ClassicalDedekindReals.sig_forall_dec, FunctionalExtensionality.functional_extensionality_dep
* `C50_equality_never_solved`: ClassicalDedekindReals.sig_not_dec, ClassicalDedekindReals.sig_forall_dec, FunctionalExtensionality.functional_extensionality_dep
* `C50_warm_start_never_solved`: ClassicalDedekindReals.sig_not_dec, ClassicalDedekindReals.sig_forall_dec, FunctionalExtensionality.functional_extensionality_dep
* `C51_first_call`: closed under the global context
* `C51_frame`: closed under the global context
* `C51_later_call`: closed under the global context
* `C51_needs_first_matrices`: closed under the global context
* `C51_same_object`: closed under the global context
* `C51_second_call_uses_factor`: closed under the global context
* `C51_second_solve_wrong`: PrimFloat.sub, PrimFloat.sqrt, PrimFloat.opp, PrimFloat.mul, PrimFloat.ltb, PrimFloat.leb, PrimFloat.float, PrimFloat.eqb, PrimFloat.div, PrimFloat.add
* `C52_active`: ClassicalDedekindReals.sig_not_dec, ClassicalDedekindReals.sig_forall_dec, FunctionalExtensionality.functional_extensionality_dep
* `C52_box_from_draws`: ClassicalDedekindReals.sig_not_dec, ClassicalDedekindReals.sig_forall_dec, FunctionalExtensionality.functional_extensionality_dep
* `C52_feasible`: ClassicalDedekindReals.sig_not_dec, ClassicalDedekindReals.sig_forall_dec, FunctionalExtensionality.functional_extensionality_dep
* `C52_inactive`: ClassicalDedekindReals.sig_not_dec, ClassicalDedekindReals.sig_forall_dec, FunctionalExtensionality.functional_extensionality_dep
* `C52_level`: ClassicalDedekindReals.sig_not_dec, ClassicalDedekindReals.sig_forall_dec, FunctionalExtensionality.functional_extensionality_dep
* `C52_not_well_formed`: ClassicalDedekindReals.sig_not_dec, ClassicalDedekindReals.sig_forall_dec, FunctionalExtensionality.functional_extensionality_dep
* `C52_solved`: ClassicalDedekindReals.sig_not_dec, ClassicalDedekindReals.sig_forall_dec, FunctionalExtensionality.functional_extensionality_dep
* `C53_both_signs`: ClassicalDedekindReals.sig_not_dec, ClassicalDedekindReals.sig_forall_dec, FunctionalExtensionality.functional_extensionality_dep
* `C53_determinant`: ClassicalDedekindReals.sig_not_dec, ClassicalDedekindReals.sig_forall_dec, FunctionalExtensionality.functional_extensionality_dep
* `C53_orthogonal`: ClassicalDedekindReals.sig_not_dec, ClassicalDedekindReals.sig_forall_dec, FunctionalExtensionality.functional_extensionality_dep
* `C54_default`: ClassicalDedekindReals.sig_not_dec, ClassicalDedekindReals.sig_forall_dec, FunctionalExtensionality.functional_extensionality_dep
* `C54_defined`: ClassicalDedekindReals.sig_not_dec, ClassicalDedekindReals.sig_forall_dec, FunctionalExtensionality.functional_extensionality_dep
* `C54_rank_at_most`: ClassicalDedekindReals.sig_not_dec, ClassicalDedekindReals.sig_forall_dec, FunctionalExtensionality.functional_extensionality_dep
* `C54_rank_exact`: ClassicalDedekindReals.sig_not_dec, ClassicalDedekindReals.sig_forall_dec, FunctionalExtensionality.functional_extensionality_dep
* `C55_defined`: ClassicalDedekindReals.sig_not_dec, ClassicalDedekindReals.sig_forall_dec, FunctionalExtensionality.functional_extensionality_dep
* `C55_ranks`: ClassicalDedekindReals.sig_not_dec, ClassicalDedekindReals.sig_forall_dec, FunctionalExtensionality.functional_extensionality_dep
* `C56_eigen_quadprog`: ClassicalDedekindReals.sig_not_dec, ClassicalDedekindReals.sig_forall_dec, FunctionalExtensionality.functional_extensionality_dep
* `C56_eiquadprog`: ClassicalDedekindReals.sig_not_dec, ClassicalDedekindReals.sig_forall_dec, FunctionalExtensionality.functional_extensionality_dep
* `C56_lssol`: ClassicalDedekindReals.sig_not_dec, ClassicalDedekindReals.sig_forall_dec, FunctionalExtensionality.functional_extensionality_dep
* `C56_only_well_formed`: ClassicalDedekindReals.sig_forall_dec, FunctionalExtensionality.functional_extensionality_dep
* `C56_qld`: ClassicalDedekindReals.sig_not_dec, ClassicalDedekindReals.sig_forall_dec, FunctionalExtensionality.functional_extensionality_dep
* `C57_flag_not_updated`: ClassicalDedekindReals.sig_forall_dec, FunctionalExtensionality.functional_extensionality_dep
* `C57_same_problem`: ClassicalDedekindReals.sig_not_dec, ClassicalDedekindReals.sig_forall_dec, FunctionalExtensionality.functional_extensionality_dep
* `C57_solves_original`: ClassicalDedekindReals.sig_not_dec, ClassicalDedekindReals.sig_forall_dec, FunctionalExtensionality.functional_extensionality_dep, Classical_Prop.classic
* `C58_infinite_bound_refused`: ClassicalDedekindReals.sig_forall_dec, FunctionalExtensionality.functional_extensionality_dep
* `C58_ranged_equality_counted`: ClassicalDedekindReals.sig_forall_dec, FunctionalExtensionality.functional_extensionality_dep
* `C58_reads`: ClassicalDedekindReals.sig_forall_dec, FunctionalExtensionality.functional_extensionality_dep
* `C58_second_read_fails`: ClassicalDedekindReals.sig_forall_dec, FunctionalExtensionality.functional_extensionality_dep
* `C58_upper_triangle_lost`: ClassicalDedekindReals.sig_forall_dec, FunctionalExtensionality.functional_extensionality_dep
* `C59_blank_line_undefined`: ClassicalDedekindReals.sig_forall_dec, FunctionalExtensionality.functional_extensionality_dep
* `C59_malformed`: ClassicalDedekindReals.sig_forall_dec, FunctionalExtensionality.functional_extensionality_dep
* `C59_misplaced_data`: ClassicalDedekindReals.sig_forall_dec, FunctionalExtensionality.functional_extensionality_dep
* `C59_never_undefined`: ClassicalDedekindReals.sig_forall_dec, FunctionalExtensionality.functional_extensionality_dep
* `C59_refuses`: ClassicalDedekindReals.sig_forall_dec, FunctionalExtensionality.functional_extensionality_dep
* `C59_undefined_exactly`: ClassicalDedekindReals.sig_forall_dec, FunctionalExtensionality.functional_extensionality_dep
* `C60_active_set`: closed under the global context
* `C60_empty`: closed under the global context
* `C60_injective`: closed under the global context
* `C60_selected`: closed under the global context
* `C60_status_values`: closed under the global context
* `C60_toMatlab`: closed under the global context
* `C61_before_first_iteration`: closed under the global context
* `C61_comment`: closed under the global context
* `C61_iteration`: closed under the global context
* `C61_log`: closed under the global context
* `C61_reading_back`: closed under the global context
* `C61_startIter`: closed under the global context
* `C61_structured_input`: closed under the global context
* `C61_subLog`: closed under the global context
* `C62_defined`: closed under the global context
* `C62_hot_start`: FunctionalExtensionality.functional_extensionality_dep
* `C62_other_sizes`: FunctionalExtensionality.functional_extensionality_dep
* `C62_reuse`: FunctionalExtensionality.functional_extensionality_dep
* `C63_never_undefined`: closed under the global context
* `C63_statuses`: closed under the global context
* `C63_undefined_exactly`: closed under the global context
* `C64_active_not_covered`: ClassicalDedekindReals.sig_not_dec, ClassicalDedekindReals.sig_forall_dec, FunctionalExtensionality.functional_extensionality_dep, Classical_Prop.classic
* `C64_inactive_multiplier`: FunctionalExtensionality.functional_extensionality_dep
* `C64_inactive_multiplier_block`: FunctionalExtensionality.functional_extensionality_dep
* `C64_nan_succeeds`: ClassicalDedekindReals.sig_not_dec, ClassicalDedekindReals.sig_forall_dec, FunctionalExtensionality.functional_extensionality_dep, Classical_Prop.classic
* `C64_success_double`: ClassicalDedekindReals.sig_not_dec, ClassicalDedekindReals.sig_forall_dec, FunctionalExtensionality.functional_extensionality_dep, Classical_Prop.classic
* `C64_success_double_block`: ClassicalDedekindReals.sig_not_dec, ClassicalDedekindReals.sig_forall_dec, FunctionalExtensionality.functional_extensionality_dep, Classical_Prop.classic
* `C64_success_double_box`: ClassicalDedekindReals.sig_not_dec, ClassicalDedekindReals.sig_forall_dec, FunctionalExtensionality.functional_extensionality_dep, Classical_Prop.classic
* `C64_success_double_warm`: ClassicalDedekindReals.sig_not_dec, ClassicalDedekindReals.sig_forall_dec, FunctionalExtensionality.functional_extensionality_dep, Classical_Prop.classic
* `C65_accepted_double`: ClassicalDedekindReals.sig_not_dec, ClassicalDedekindReals.sig_forall_dec, FunctionalExtensionality.functional_extensionality_dep, Classical_Prop.classic
* `C65_accepted_experimental`: ClassicalDedekindReals.sig_not_dec, ClassicalDedekindReals.sig_forall_dec, FunctionalExtensionality.functional_extensionality_dep, Classical_Prop.classic
* `C65_nan_hessian_accepted`: ClassicalDedekindReals.sig_not_dec, ClassicalDedekindReals.sig_forall_dec, FunctionalExtensionality.functional_extensionality_dep, Classical_Prop.classic
* `C65_rejected_double`: ClassicalDedekindReals.sig_not_dec, ClassicalDedekindReals.sig_forall_dec, FunctionalExtensionality.functional_extensionality_dep, Classical_Prop.classic
* `C65_rejected_experimental`: ClassicalDedekindReals.sig_not_dec, ClassicalDedekindReals.sig_forall_dec, FunctionalExtensionality.functional_extensionality_dep, Classical_Prop.classic
* `C65_same_verdict`: closed under the global context
* `C66_reuse`: FunctionalExtensionality.functional_extensionality_dep
* `C66_reuse_defined`: FunctionalExtensionality.functional_extensionality_dep
* `C67_hessian_consumed`: ClassicalDedekindReals.sig_not_dec, ClassicalDedekindReals.sig_forall_dec, FunctionalExtensionality.functional_extensionality_dep
* `C67_identity_harmless`: ClassicalDedekindReals.sig_not_dec, ClassicalDedekindReals.sig_forall_dec, FunctionalExtensionality.functional_extensionality_dep
* `C67_second_answer_wrong`: PrimFloat.sub, PrimFloat.sqrt, PrimFloat.opp, PrimFloat.mul, PrimFloat.ltb, PrimFloat.leb, PrimFloat.float, PrimFloat.eqb, PrimFloat.div, PrimFloat.add
* `C68_assert_one_sided`: ClassicalDedekindReals.sig_not_dec, ClassicalDedekindReals.sig_forall_dec, FunctionalExtensionality.functional_extensionality_dep, Classical_Prop.classic
* `C68_benchmark_loop`: ClassicalDedekindReals.sig_not_dec, ClassicalDedekindReals.sig_forall_dec, FunctionalExtensionality.functional_extensionality_dep, Classical_Prop.classic
* `C68_choice`: closed under the global context
* `C68_path`: ClassicalDedekindReals.sig_not_dec, ClassicalDedekindReals.sig_forall_dec, FunctionalExtensionality.functional_extensionality_dep, Classical_Prop.classic
* `C68_rotation`: ClassicalDedekindReals.sig_not_dec, ClassicalDedekindReals.sig_forall_dec, FunctionalExtensionality.functional_extensionality_dep, Classical_Prop.classic
* `C68_ws_problem`: ClassicalDedekindReals.sig_not_dec, ClassicalDedekindReals.sig_forall_dec, FunctionalExtensionality.functional_extensionality_dep
* `C69_near_minimal_double`: ClassicalDedekindReals.sig_not_dec, ClassicalDedekindReals.sig_forall_dec, FunctionalExtensionality.functional_extensionality_dep, Classical_Prop.classic
* `C69_objective_double`: ClassicalDedekindReals.sig_not_dec, ClassicalDedekindReals.sig_forall_dec, FunctionalExtensionality.functional_extensionality_dep, Classical_Prop.classic
* `C69_unconstrained_double`: ClassicalDedekindReals.sig_not_dec, ClassicalDedekindReals.sig_forall_dec, FunctionalExtensionality.functional_extensionality_dep, Classical_Prop.classic
* `C70_between_prices`: ClassicalDedekindReals.sig_not_dec, ClassicalDedekindReals.sig_forall_dec, FunctionalExtensionality.functional_extensionality_dep
* `C70_linear_cost`: ClassicalDedekindReals.sig_not_dec, ClassicalDedekindReals.sig_forall_dec, FunctionalExtensionality.functional_extensionality_dep
* `C70_prices`: ClassicalDedekindReals.sig_not_dec, ClassicalDedekindReals.sig_forall_dec, FunctionalExtensionality.functional_extensionality_dep
* `C71_bounds_as_constraints`: ClassicalDedekindReals.sig_not_dec, ClassicalDedekindReals.sig_forall_dec, FunctionalExtensionality.functional_extensionality_dep
* `C71_negated`: ClassicalDedekindReals.sig_not_dec, ClassicalDedekindReals.sig_forall_dec, FunctionalExtensionality.functional_extensionality_dep
* `C71_permuted`: ClassicalDedekindReals.sig_not_dec, ClassicalDedekindReals.sig_forall_dec, FunctionalExtensionality.functional_extensionality_dep
* `C71_same_answer`: ClassicalDedekindReals.sig_not_dec, ClassicalDedekindReals.sig_forall_dec, FunctionalExtensionality.functional_extensionality_dep
* `C71_scaled_constraints`: ClassicalDedekindReals.sig_not_dec, ClassicalDedekindReals.sig_forall_dec, FunctionalExtensionality.functional_extensionality_dep
* `C71_scaled_cost`: ClassicalDedekindReals.sig_not_dec, ClassicalDedekindReals.sig_forall_dec, FunctionalExtensionality.functional_extensionality_dep
* `C71_split`: ClassicalDedekindReals.sig_not_dec, ClassicalDedekindReals.sig_forall_dec, FunctionalExtensionality.functional_extensionality_dep
* `C72_both_kinds_differ`: PrimFloat.sub, PrimFloat.sqrt, PrimFloat.opp, PrimFloat.mul, PrimFloat.ltb, PrimFloat.leb, PrimFloat.float, PrimFloat.eqb, PrimFloat.div, PrimFloat.add
* `C72_no_equalities`: ClassicalDedekindReals.sig_not_dec, ClassicalDedekindReals.sig_forall_dec, FunctionalExtensionality.functional_extensionality_dep
* `C72_same_steps`: ClassicalDedekindReals.sig_not_dec, ClassicalDedekindReals.sig_forall_dec, FunctionalExtensionality.functional_extensionality_dep
* `C73_default_options`: ClassicalDedekindReals.sig_not_dec, ClassicalDedekindReals.sig_forall_dec, FunctionalExtensionality.functional_extensionality_dep
* `C73_stable_solver`: ClassicalDedekindReals.sig_not_dec, ClassicalDedekindReals.sig_forall_dec, FunctionalExtensionality.functional_extensionality_dep
* `C73_warm_solver`: ClassicalDedekindReals.sig_not_dec, ClassicalDedekindReals.sig_forall_dec, FunctionalExtensionality.functional_extensionality_dep
* `C74_experimental`: ClassicalDedekindReals.sig_not_dec, ClassicalDedekindReals.sig_forall_dec, FunctionalExtensionality.functional_extensionality_dep, Classical_Prop.classic
* `C74_random_test_passes`: ClassicalDedekindReals.sig_not_dec, ClassicalDedekindReals.sig_forall_dec, FunctionalExtensionality.functional_extensionality_dep, Classical_Prop.classic
* `C74_warm_start`: ClassicalDedekindReals.sig_not_dec, ClassicalDedekindReals.sig_forall_dec, FunctionalExtensionality.functional_extensionality_dep, Classical_Prop.classic
* `C75_nothing_allocated`: closed under the global context
* `C75_one_request`: closed under the global context
* `C75_overflow_iff`: closed under the global context
* `C75_sizes_exact`: closed under the global context
* `C75_views_exact`: closed under the global context
* `C75_wraps_out_of_bounds`: closed under the global context
* `C76_matrix_file`: closed under the global context
* `C76_matrix_file_undefined`: closed under the global context
* `C76_prefix`: closed under the global context
* `C76_reads`: closed under the global context
* `C76_sizes`: closed under the global context
* `C76_title_iff`: closed under the global context
* `C76_title_prefix`: closed under the global context
* `C76_truncated_refused`: closed under the global context
* `C77_arrow_test`: ClassicalDedekindReals.sig_not_dec, ClassicalDedekindReals.sig_forall_dec, FunctionalExtensionality.functional_extensionality_dep
* `C77_block_solver_tests`: ClassicalDedekindReals.sig_not_dec, ClassicalDedekindReals.sig_forall_dec, FunctionalExtensionality.functional_extensionality_dep
* `C77_every_matrix`: ClassicalDedekindReals.sig_forall_dec
* `C77_generators`: ClassicalDedekindReals.sig_not_dec, ClassicalDedekindReals.sig_forall_dec, FunctionalExtensionality.functional_extensionality_dep
* `C77_nonvacuous`: ClassicalDedekindReals.sig_not_dec, ClassicalDedekindReals.sig_forall_dec, FunctionalExtensionality.functional_extensionality_dep
* `C77_scan`: ClassicalDedekindReals.sig_forall_dec, FunctionalExtensionality.functional_extensionality_dep
* `C77_scan_gaps`: ClassicalDedekindReals.sig_forall_dec, FunctionalExtensionality.functional_extensionality_dep
* `C77_start_ignored`: ClassicalDedekindReals.sig_not_dec, ClassicalDedekindReals.sig_forall_dec, FunctionalExtensionality.functional_extensionality_dep
* `C77_tridiagonal_test`: ClassicalDedekindReals.sig_not_dec, ClassicalDedekindReals.sig_forall_dec, FunctionalExtensionality.functional_extensionality_dep
* `C78_active_set`: closed under the global context
* `C78_keeps_buffers`: closed under the global context
* `C78_memory`: closed under the global context
* `C78_realtime`: closed under the global context
* `C78_refinement`: closed under the global context
* `C78_solver`: closed under the global context
* `C78_when_allocated`: closed under the global context
* `C79_block`: closed under the global context
* `C79_experimental`: closed under the global context
* `C79_failed`: closed under the global context
* `C79_numbers`: closed under the global context
* `C79_one_more`: closed under the global context
* `C79_one_more_block`: closed under the global context
* `C79_one_more_experimental`: closed under the global context
* `C79_stable`: closed under the global context
