{
 "claims": [
  {
   "property": "C01",
   "status": "proved",
   "theorems": [
    "C01_simplify_preserves_value"
   ],
   "note": ""
  },
  {
   "property": "C02",
   "status": "proved",
   "theorems": [
    "C02_simplify_is_safe_for_doubles",
    "C02_without_finiteness_refuted",
    "C02_sign_of_zero_refuted"
   ],
   "note": ""
  },
  {
   "property": "C03",
   "status": "proved",
   "theorems": [
    "C03_inplace_simplify_terminates",
    "C03_simplify_top_is_the_loop"
   ],
   "note": ""
  },
  {
   "property": "C04",
   "status": "proved",
   "theorems": [
    "C04_simplify_is_final"
   ],
   "note": ""
  },
  {
   "property": "C05",
   "status": "proved",
   "theorems": [
    "C05_simplify_introduces_nothing"
   ],
   "note": ""
  },
  {
   "property": "C06",
   "status": "proved",
   "theorems": [
    "C06_diff_is_partial_derivative",
    "C06_whenever_defined"
   ],
   "note": ""
  },
  {
   "property": "C07",
   "status": "proved",
   "theorems": [
    "C07_absent_variable_gives_zero"
   ],
   "note": ""
  },
  {
   "property": "C08",
   "status": "proved",
   "theorems": [
    "C08_diff_succeeds_iff",
    "C08_diff_failure"
   ],
   "note": ""
  },
  {
   "property": "C09",
   "status": "proved",
   "theorems": [
    "C09_gateaux_derivative"
   ],
   "note": ""
  },
  {
   "property": "C10",
   "status": "proved",
   "theorems": [
    "C10_mixed_derivatives_commute"
   ],
   "note": ""
  },
  {
   "property": "C11",
   "status": "proved",
   "theorems": [
    "C11_substitution_lemma",
    "C11_substitute_then_simplify"
   ],
   "note": ""
  },
  {
   "property": "C12",
   "status": "proved",
   "theorems": [
    "C12_simultaneous_substitution",
    "C12_simultaneous_substitution_value"
   ],
   "note": ""
  },
  {
   "property": "C13",
   "status": "proved",
   "theorems": [
    "C13_absent_is_identity",
    "C13_absent_is_identity_simultaneous"
   ],
   "note": ""
  },
  {
   "property": "C14",
   "status": "proved",
   "theorems": [
    "C14_substituting_constants_is_evaluation",
    "C14_substitute_all_over_reals"
   ],
   "note": ""
  },
  {
   "property": "C15",
   "status": "proved",
   "theorems": [
    "C15_scalar_eval_is_vector_eval"
   ],
   "note": ""
  },
  {
   "property": "C16",
   "status": "proved",
   "theorems": [
    "C16_eval_succeeds_iff_evaluable",
    "C16_eval_independent_of_order",
    "C16_some_order_exists"
   ],
   "note": ""
  },
  {
   "property": "C17",
   "status": "proved",
   "theorems": [
    "C17_eval_depends_on_occurring_variables",
    "C17_extra_entries_are_ignored"
   ],
   "note": ""
  },
  {
   "property": "C18",
   "status": "proved",
   "theorems": [
    "C18_constant_expressions_unwrap"
   ],
   "note": ""
  },
  {
   "property": "C19",
   "status": "proved",
   "theorems": [
    "C19_unwrap_agrees_with_eval"
   ],
   "note": ""
  },
  {
   "property": "C20",
   "status": "proved",
   "theorems": [
    "C20_deep_equal_is_identity_up_to_constants",
    "C20_deep_equal_is_an_equivalence",
    "C20_reals_have_equal_laws",
    "C20_doubles_have_equal_laws",
    "C20_nan_refuted"
   ],
   "note": ""
  },
  {
   "property": "C21",
   "status": "proved",
   "theorems": [
    "C21_deep_equal_reals_identical",
    "C21_deep_equal_same_variables",
    "C21_diff_respects_deep_equal",
    "C21_eval_respects_deep_equal",
    "C21_signed_zero_refuted"
   ],
   "note": ""
  },
  {
   "property": "C22",
   "status": "proved",
   "theorems": [
    "C22_integrals_not_distinguished",
    "C22_symbolic_integrals_not_distinguished",
    "C22_vector_equals_its_prefixes",
    "C22_soundness_refuted"
   ],
   "note": ""
  },
  {
   "property": "C23",
   "status": "proved",
   "theorems": [
    "C23_objects_behave_as_values",
    "C23_other_objects_untouched",
    "C23_binary_assignment_copies"
   ],
   "note": ""
  },
  {
   "property": "C24",
   "status": "proved",
   "theorems": [
    "C24_every_node_has_one_owner",
    "C24_heap_empty_at_the_end",
    "C24_no_undefined_behaviour",
    "C24_reading_an_empty_object_is_undefined",
    "C24_assignment_from_own_operand_refuted",
    "C24_adopting_a_pointer_refuted",
    "C24_gradient_by_function_symbol_leaks_refuted",
    "C24_exception_leaks_refuted",
    "C24_vectors_of_different_size_refuted"
   ],
   "note": ""
  },
  {
   "property": "C25",
   "status": "proved",
   "theorems": [
    "C25_traversal_visits_each_node_once_in_order",
    "C25_order_is_strict"
   ],
   "note": ""
  },
  {
   "property": "C26",
   "status": "proved",
   "theorems": [
    "C26_manipulation_replaces_outermost_selected_nodes",
    "C26_default_functor_copies"
   ],
   "note": ""
  },
  {
   "property": "C27",
   "status": "proved",
   "theorems": [
    "C27_symbolic_interval_replacement",
    "C27_no_symbolic_integral_left",
    "C27_searched_interval_is_ignored",
    "C27_nested_refuted"
   ],
   "note": ""
  },
  {
   "property": "C28",
   "status": "proved",
   "theorems": [
    "C28_gauss_is_exact_for_affine",
    "C28_gauss_value"
   ],
   "note": ""
  },
  {
   "property": "C29",
   "status": "proved",
   "theorems": [
    "C29_quadrature_is_additive",
    "C29_quadrature_outcome",
    "C29_only_symbolic_integrals_are_undefined",
    "C29_symbolic_integral_throws_refuted"
   ],
   "note": ""
  },
  {
   "property": "C30",
   "status": "proved",
   "theorems": [
    "C30_sum_and_difference_are_componentwise",
    "C30_size_mismatch_is_undefined",
    "C30_scaling_is_componentwise",
    "C30_product_is_dot_product",
    "C30_diff_is_componentwise",
    "C30_substitution_is_componentwise"
   ],
   "note": ""
  },
  {
   "property": "C31",
   "status": "proved",
   "theorems": [
    "C31_deep_str_identifies",
    "C31_streamed_text_identifies",
    "C31_streamed_equation_identifies",
    "C31_other_function_families_refuted"
   ],
   "note": ""
  },
  {
   "property": "C32",
   "status": "proved",
   "theorems": [
    "C32_cartesian_form",
    "C32_cartesian_form_of_equation",
    "C32_eliminates_grad_and_div",
    "C32_introduces_only_partial_derivatives",
    "C32_unsimplified_input_refuted",
    "C32_nothing_else_is_replaced",
    "C32_gradient_of_expression_refuted",
    "C32_preserves_meaning"
   ],
   "note": ""
  },
  {
   "property": "C33",
   "status": "proved",
   "theorems": [
    "C33_last_customization_wins",
    "C33_output_depends_on_symbols_only",
    "C33_copy_without_customized_symbols",
    "C33_copy_keeps_customizations_refuted",
    "C33_empty_customization_refuted",
    "C33_added_processors_are_asked_last"
   ],
   "note": ""
  },
  {
   "property": "C34",
   "status": "proved",
   "theorems": [
    "C34_output_reads_back",
    "C34_reading_preserves_meaning",
    "C34_same_output_same_meaning",
    "C34_equation_reads_back"
   ],
   "note": ""
  },
  {
   "property": "C35",
   "status": "proved",
   "theorems": [
    "C35_simplify_preserves_value",
    "C35_without_range_condition_refuted"
   ],
   "note": ""
  },
  {
   "property": "C36",
   "status": "proved",
   "theorems": [
    "C36_instantiation_is_finite",
    "C36_simplify_is_final",
    "C36_single_fraction_is_reduced_refuted",
    "C36_constant_minus_zero"
   ],
   "note": ""
  },
  {
   "property": "C37",
   "status": "proved",
   "theorems": [
    "C37_no_narrowing_below_bound",
    "C37_without_bound_refuted"
   ],
   "note": ""
  },
  {
   "property": "C38",
   "status": "proved",
   "theorems": [
    "C38_gcd_is_greatest_common_divisor",
    "C38_large_gcd_refuted"
   ],
   "note": ""
  },
  {
   "property": "C39",
   "status": "proved",
   "theorems": [
    "C39_conversion_keeps_shape",
    "C39_conversion_keeps_value"
   ],
   "note": ""
  },
  {
   "property": "C40",
   "status": "proved",
   "theorems": [
    "C40_operators_keep_value",
    "C40_which_operators_compile",
    "C40_quotient_of_same_type_refuted"
   ],
   "note": ""
  },
  {
   "property": "C41",
   "status": "proved",
   "theorems": [
    "C41_diff_is_partial_derivative",
    "C41_diff_agrees_with_run_time"
   ],
   "note": ""
  },
  {
   "property": "C42",
   "status": "proved",
   "theorems": [
    "C42_expand_preserves_value"
   ],
   "note": ""
  },
  {
   "property": "C43",
   "status": "proved",
   "theorems": [
    "C43_expand_expands",
    "C43_degree_compiles",
    "C43_degree_of_expansion_refuted"
   ],
   "note": ""
  },
  {
   "property": "C44",
   "status": "proved",
   "theorems": [
    "C44_linear_decomposition",
    "C44_coefficient_of_subexpression_refuted",
    "C44_not_linear_refuted"
   ],
   "note": ""
  },
  {
   "property": "C45",
   "status": "proved",
   "theorems": [
    "C45_drop_is_evaluation_at_zero"
   ],
   "note": ""
  },
  {
   "property": "C46",
   "status": "proved",
   "theorems": [
    "C46_integrate_polynomial",
    "C46_integrate_univariate",
    "C46_iterated_integral",
    "C46_other_variable_refuted",
    "C46_quotient_refuted",
    "C46_always_compiles_refuted"
   ],
   "note": ""
  },
  {
   "property": "C47",
   "status": "proved",
   "theorems": [
    "C47_pow",
    "C47_negative_exponent_refuted",
    "C47_degree_is_exponent"
   ],
   "note": ""
  },
  {
   "property": "C48",
   "status": "proved",
   "theorems": [
    "C48_substitute_variable",
    "C48_exact_match_first"
   ],
   "note": ""
  },
  {
   "property": "C49",
   "status": "proved",
   "theorems": [
    "C49_eval_value",
    "C49_eval_of_numbers",
    "C49_constants_are_computed"
   ],
   "note": ""
  },
  {
   "property": "C50",
   "status": "proved",
   "theorems": [
    "C50_call_is_checked",
    "C50_free_eval_unchecked_refuted"
   ],
   "note": ""
  },
  {
   "property": "C51",
   "status": "proved",
   "theorems": [
    "C51_assigned_number_is_unusable",
    "C51_assigned_ct_constants_are_unusable",
    "C51_unary_expressions_are_usable",
    "C51_assignment_agrees_with_construction",
    "C51_assignment_always_agrees_refuted",
    "C51_ordinary_expressions_never_throw_it",
    "C51_operations_keep_expressions_ordinary"
   ],
   "note": ""
  },
  {
   "property": "C52",
   "status": "proved",
   "theorems": [
    "C52_simplify_preserves_meaning",
    "C52_meaning_is_unique",
    "C52_meaning_extends_eval",
    "C52_zero_times_vector_refuted"
   ],
   "note": ""
  },
  {
   "property": "C53",
   "status": "proved",
   "theorems": [
    "C53_repeated_diff_is_nth_derivative"
   ],
   "note": ""
  },
  {
   "property": "C54",
   "status": "proved",
   "theorems": [
    "C54_chain_rule"
   ],
   "note": ""
  },
  {
   "property": "C55",
   "status": "proved",
   "theorems": [
    "C55_gauss_error_bound"
   ],
   "note": ""
  },
  {
   "property": "C56",
   "status": "proved",
   "theorems": [
    "C56_substitutions_commute",
    "C56_renaming_round_trip",
    "C56_sequential_is_simultaneous",
    "C56_substitution_eliminates",
    "C56_without_conditions_refuted"
   ],
   "note": ""
  },
  {
   "property": "C57",
   "status": "proved",
   "theorems": [
    "C57_simplify_never_enlarges",
    "C57_iterations_linear_in_size",
    "C57_with_vectors_refuted",
    "C57_passes_at_most_height",
    "C57_height_is_attained"
   ],
   "note": ""
  },
  {
   "property": "C58",
   "status": "proved",
   "theorems": [
    "C58_value_is_what_was_written",
    "C58_run_time_expressions_compile",
    "C58_exp_of_function_refuted",
    "C58_laplace_of_expression_refuted",
    "C58_results_hold_their_arguments",
    "C58_assignment_is_initialisation",
    "C58_assignment_of_ct_variable_refuted"
   ],
   "note": ""
  },
  {
   "property": "C59",
   "status": "proved",
   "theorems": [
    "C59_calls_are_evaluation",
    "C59_compile_time_calls",
    "C59_every_coordinate_is_read",
    "C59_which_calls_compile",
    "C59_variable_at_number_refuted",
    "C59_eval_is_call",
    "C59_eval_of_compile_time_variable",
    "C59_vector_3_keeps_values",
    "C59_vector_2_keeps_values_refuted"
   ],
   "note": ""
  },
  {
   "property": "C60",
   "status": "proved",
   "theorems": [
    "C60_sides_are_what_was_written",
    "C60_run_time_arguments_compile",
    "C60_all_pairs_compile_refuted",
    "C60_integral_holds_its_arguments",
    "C60_which_equations_compile",
    "C60_which_intervals_compile",
    "C60_which_symbolic_integrals_compile"
   ],
   "note": ""
  },
  {
   "property": "C61",
   "status": "proved",
   "theorems": [
    "C61_diff_overloads_agree",
    "C61_same_for_every_class_refuted",
    "C61_which_calls_compile"
   ],
   "note": ""
  },
  {
   "property": "C62",
   "status": "proved",
   "theorems": [
    "C62_substitute_overloads_agree",
    "C62_compile_time_agrees",
    "C62_always_as_written_refuted",
    "C62_which_calls_compile"
   ],
   "note": ""
  },
  {
   "property": "C63",
   "status": "proved",
   "theorems": [
    "C63_nothing_left_to_do",
    "C63_constants_fold"
   ],
   "note": ""
  },
  {
   "property": "C64",
   "status": "proved",
   "theorems": [
    "C64_derivative_of_what_was_written"
   ],
   "note": ""
  },
  {
   "property": "C65",
   "status": "proved",
   "theorems": [
    "C65_substitution_in_what_was_written"
   ],
   "note": ""
  },
  {
   "property": "C66",
   "status": "proved",
   "theorems": [
    "C66_quadrature_of_what_was_written",
    "C66_quadrature_error"
   ],
   "note": ""
  },
  {
   "property": "C67",
   "status": "proved",
   "theorems": [
    "C67_translators_are_values",
    "C67_every_processor_has_one_owner",
    "C67_no_processor_leaks",
    "C67_assignment_refuted",
    "C67_shared_processor_refuted"
   ],
   "note": ""
  },
  {
   "property": "C68",
   "status": "proved",
   "theorems": [
    "C68_evaluation_error",
    "C68_simplified_expression_error",
    "C68_correctly_rounded_libm",
    "C68_polynomial_error",
    "C68_rearranged_polynomial_error",
    "C68_error_relative_to_the_result_refuted",
    "C68_underflow_refuted"
   ],
   "note": ""
  },
  {
   "property": "C69",
   "status": "proved",
   "theorems": [
    "C69_quadratures_are_values",
    "C69_wrappers_are_moved",
    "C69_every_heap_object_has_one_owner",
    "C69_default_constructed_in_containers_refuted",
    "C69_integrating_without_a_rule_refuted",
    "C69_copied_wrapper_refuted",
    "C69_copied_traversal_wrapper_refuted",
    "C69_shared_pointer_refuted"
   ],
   "note": ""
  },
  {
   "property": "C70",
   "status": "proved",
   "theorems": [
    "C70_evaluates_as_converted",
    "C70_simplifies_as_converted",
    "C70_differentiates_as_converted",
    "C70_gradient_refuted",
    "C70_simplify_preserves_value",
    "C70_diff_is_partial_derivative",
    "C70_deep_equal_is_sound",
    "C70_equal_value_refuted",
    "C70_substitutes_symbols_as_converted",
    "C70_substitution_refuted",
    "C70_own_constants",
    "C70_latex_shows_constants_refuted",
    "C70_folding_is_evaluation",
    "C70_folding_undefined_iff_overflow",
    "C70_folding_with_floats",
    "C70_folding_of_others_refuted"
   ],
   "note": ""
  },
  {
   "property": "C71",
   "status": "proved",
   "theorems": [
    "C71_evaluation_error",
    "C71_derivative_error",
    "C71_derivatives_correspond",
    "C71_quadrature_error",
    "C71_integral_error",
    "C71_polynomials_over_a_box"
   ],
   "note": ""
  },
  {
   "property": "C72",
   "status": "proved",
   "theorems": [
    "C72_value_is_what_was_written",
    "C72_dot_product_order",
    "C72_scaling_acts_on_entries",
    "C72_which_operators_compile",
    "C72_what_is_asserted",
    "C72_sizes_and_undefined_behaviour",
    "C72_vector_plus_scalar_refuted"
   ],
   "note": ""
  },
  {
   "property": "C73",
   "status": "proved",
   "theorems": [
    "C73_step_solves_linearised_system",
    "C73_why_it_stops",
    "C73_quadratic_convergence",
    "C73_solver_converges",
    "C73_linear_systems_in_one_step",
    "C73_singular_jacobian_refuted",
    "C73_step_keeps_two_entries",
    "C73_parameters_lost_refuted",
    "C73_why_it_stops_in_doubles",
    "C73_residual_in_doubles",
    "C73_step_in_doubles",
    "C73_solver_converges_in_doubles",
    "C73_tutorial_in_doubles"
   ],
   "note": ""
  },
  {
   "property": "C74",
   "status": "proved",
   "theorems": [
    "C74_what_is_left",
    "C74_unchanged_exactly_if_nothing_to_do",
    "C74_all_numbers_leave_one_number",
    "C74_partial_evaluation_in_doubles",
    "C74_benchmark_expression",
    "C74_functions_of_numbers_refuted"
   ],
   "note": ""
  },
  {
   "property": "C75",
   "status": "proved",
   "theorems": [
    "C75_dispatched_to_its_class_once",
    "C75_order_of_tests_irrelevant",
    "C75_shallow_equal_is_same_class",
    "C75_shallow_equal_is_equivalence",
    "C75_tutorial_output",
    "C75_tutorial_one_line_per_node",
    "C75_shallow_str_tells_kind",
    "C75_shallow_str_just_the_type_refuted"
   ],
   "note": ""
  },
  {
   "property": "C76",
   "status": "proved",
   "theorems": [
    "C76_exceptions_of_evaluation",
    "C76_message_names_the_fault",
    "C76_exceptions_of_unwrap",
    "C76_diff_message",
    "C76_what_is_readable",
    "C76_what_of_diff_and_unwrap",
    "C76_what_of_index_refuted",
    "C76_std_exceptions",
    "C76_catch_std_exception_refuted"
   ],
   "note": ""
  },
  {
   "property": "C77",
   "status": "proved",
   "theorems": [
    "C77_size_of_derivative",
    "C77_linear_bound_refuted",
    "C77_size_of_repeated_derivative",
    "C77_size_of_substitution",
    "C77_size_of_any_substitution"
   ],
   "note": ""
  },
  {
   "property": "C78",
   "status": "proved",
   "theorems": [
    "C78_text_identifies_object",
    "C78_text_identifies_sides",
    "C78_text_identifies_vector",
    "C78_what_can_be_streamed",
    "C78_everything_can_be_streamed_refuted"
   ],
   "note": ""
  },
  {
   "property": "C79",
   "status": "proved",
   "theorems": [
    "C79_counting_changes_nothing",
    "C79_calls_of_queries",
    "C79_calls_of_simplify",
    "C79_every_pass_is_counted",
    "C79_simplify_is_linear_refuted",
    "C79_calls_of_substitute",
    "C79_calls_of_diff",
    "C79_diff_is_polynomial_refuted"
   ],
   "note": ""
  },
  {
   "property": "C80",
   "status": "proved",
   "theorems": [
    "C80_simplify_never_enlarges",
    "C80_size_of_expansion",
    "C80_expansion_is_polynomial_refuted",
    "C80_size_of_derivative",
    "C80_size_of_substitution",
    "C80_size_of_coefficients",
    "C80_size_of_powers",
    "C80_size_of_integrals"
   ],
   "note": ""
  },
  {
   "property": "C81",
   "status": "proved",
   "theorems": [
    "C81_nearest_six_digits",
    "C81_printed_value",
    "C81_integers",
    "C81_exponents",
    "C81_literals_print_as_written",
    "C81_same_text",
    "C81_text_determines_value_refuted",
    "C81_text_identifies_up_to_rounding",
    "C81_latex_reads_back",
    "C81_latex_of_small_numbers_refuted"
   ],
   "note": ""
  },
  {
   "property": "C82",
   "status": "proved",
   "theorems": [
    "C82_programs_compute_functions",
    "C82_programs_leave_no_memory",
    "C82_simplification_is_invisible",
    "C82_smooth_functions_have_derivatives"
   ],
   "note": ""
  },
  {
   "property": "C83",
   "status": "proved",
   "theorems": [
    "C83_programs_compute_in_doubles",
    "C83_programs_leave_no_memory",
    "C83_simplification_is_invisible",
    "C83_signs_of_zeros_refuted"
   ],
   "note": ""
  },
  {
   "property": "C84",
   "status": "proved",
   "theorems": [
    "C84_smooth_integrands",
    "C84_continuous_integrands",
    "C84_equal_parts",
    "C84_equal_parts_converge",
    "C84_parts_in_doubles"
   ],
   "note": ""
  },
  {
   "property": "C85",
   "status": "proved",
   "theorems": [
    "C85_calls_of_a_traversal",
    "C85_functor_is_given_the_nodes",
    "C85_manipulation_with_throwing_functor",
    "C85_exceptions_are_the_functors",
    "C85_exception_leaks_refuted"
   ],
   "note": ""
  },
  {
   "property": "C86",
   "status": "proved",
   "theorems": [
    "C86_evaluation_is_exact",
    "C86_rearrangement",
    "C86_simplify_is_exact",
    "C86_derivative_is_exact",
    "C86_beyond_the_bound_refuted"
   ],
   "note": ""
  },
  {
   "property": "C87",
   "status": "proved",
   "theorems": [
    "C87_calls_of_a_manipulation",
    "C87_order_of_the_calls",
    "C87_functor_is_given_the_nodes",
    "C87_stateless_functors",
    "C87_order_matters_refuted"
   ],
   "note": ""
  },
  {
   "property": "C88",
   "status": "proved",
   "theorems": [
    "C88_calls_of_the_rule",
    "C88_value",
    "C88_stateless_rules",
    "C88_undefined_behaviour",
    "C88_order_matters_refuted"
   ],
   "note": ""
  },
  {
   "property": "C89",
   "status": "proved",
   "theorems": [
    "C89_calls_of_the_processors",
    "C89_processors_are_given_the_expression",
    "C89_equations_and_intervals",
    "C89_exceptions_in_equations_and_intervals",
    "C89_order_matters_refuted"
   ],
   "note": ""
  }
 ]
}