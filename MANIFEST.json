{
 "claims": [
  {
   "property": "C01",
   "status": "proved",
   "theorems": [
    "C01_lor_exact",
    "C01_land_exact",
    "C01_lnot_exact",
    "C01_is_strong",
    "C01_stronger_eq",
    "C01_stronger",
    "C01_connectives_monotone"
   ],
   "note": ""
  },
  {
   "property": "C02",
   "status": "proved",
   "theorems": [
    "C02_gcd_correct",
    "C02_gcd_nonneg",
    "C02_gcd_undefined_iff",
    "C02_lcm_vector"
   ],
   "note": ""
  },
  {
   "property": "C03",
   "status": "proved",
   "theorems": [
    "C03_partial_factor"
   ],
   "note": ""
  },
  {
   "property": "C04",
   "status": "proved",
   "theorems": [
    "C04_find_divisors_small",
    "C04_find_divisors_large"
   ],
   "note": ""
  },
  {
   "property": "C05",
   "status": "proved",
   "theorems": [
    "C05_sum_poly_times_exponentials",
    "C05_sum_poly",
    "C05_sum_poly_alt",
    "C05_poly_dec",
    "C05_sum_falling_times_exp"
   ],
   "note": ""
  },
  {
   "property": "C06",
   "status": "partial",
   "theorems": [
    "C06_cosine",
    "C06_cosine_angle_zero",
    "C06_poles",
    "C06_poles_refuted",
    "C06_sine_differences_partial",
    "C06_sine_multiples_of_pi_partial",
    "C06_sine_refuted"
   ],
   "note": ""
  },
  {
   "property": "C07",
   "status": "proved",
   "theorems": [
    "C07_caches_are_transparent",
    "C07_expansion_is_unique",
    "C07_acyclic_definitions_expand",
    "C07_expansion_has_the_same_value"
   ],
   "note": ""
  },
  {
   "property": "C08",
   "status": "partial",
   "theorems": [
    "C08_find_symbol",
    "C08_find_symbol_any_names_refuted",
    "C08_find_symbol_defined_refuted"
   ],
   "note": ""
  },
  {
   "property": "C09",
   "status": "proved",
   "theorems": [
    "C09_names_are_distinct",
    "C09_generated_symbols_recognised",
    "C09_symbols_are_renamed_apart",
    "C09_hypotheses_hold_of_an_instance"
   ],
   "note": ""
  },
  {
   "property": "C10",
   "status": "partial",
   "theorems": [
    "C10_size_is_number_of_nodes",
    "C10_size_is_positive",
    "C10_size_on_blackboard",
    "C10_size_of_expansion_refuted"
   ],
   "note": ""
  },
  {
   "property": "C11",
   "status": "partial",
   "theorems": [
    "C11_floor_of_a_number",
    "C11_floor_preserves_value",
    "C11_mod_of_integers",
    "C11_mod_of_shifted_symbol",
    "C11_mod_of_rationals_refuted",
    "C11_mod_of_rational_shift_refuted",
    "C11_binom_of_numbers"
   ],
   "note": ""
  },
  {
   "property": "C12",
   "status": "partial",
   "theorems": [
    "C12_sum_with_numeric_limits",
    "C12_sum_limits_are_integers",
    "C12_sum_with_symbolic_limit",
    "C12_empty_symbolic_range_refuted"
   ],
   "note": ""
  },
  {
   "property": "C13",
   "status": "partial",
   "theorems": [
    "C13_product_with_numeric_limits",
    "C13_product_with_symbolic_limit",
    "C13_product_with_shifted_limit",
    "C13_shifted_limit_refuted"
   ],
   "note": ""
  },
  {
   "property": "C14",
   "status": "partial",
   "theorems": [
    "C14_max_and_min",
    "C14_close_numbers_refuted",
    "C14_negative_parameter_refuted"
   ],
   "note": ""
  },
  {
   "property": "C15",
   "status": "partial",
   "theorems": [
    "C15_scalar_means_no_occurrence",
    "C15_scalar_value_is_independent",
    "C15_polynomial",
    "C15_integer_scalar",
    "C15_integer_polynomial",
    "C15_rational_scalar",
    "C15_integer_scalar_with_functions_refuted",
    "C15_rational_scalar_refuted",
    "C15_no_x_function"
   ],
   "note": ""
  },
  {
   "property": "C16",
   "status": "partial",
   "theorems": [
    "C16_substitute_acts_on_values",
    "C16_capture_refuted"
   ],
   "note": ""
  },
  {
   "property": "C17",
   "status": "partial",
   "theorems": [
    "C17_distribute_preserves_value",
    "C17_fully_distributed_refuted"
   ],
   "note": ""
  },
  {
   "property": "C18",
   "status": "partial",
   "theorems": [
    "C18_answers_concern_the_current_recurrence",
    "C18_no_undefined_behaviour",
    "C18_replace_recurrence_refuted",
    "C18_assignment_refuted",
    "C18_hypotheses_hold_of_an_instance"
   ],
   "note": ""
  },
  {
   "property": "C19",
   "status": "partial",
   "theorems": [
    "C19_accepted_exactly_when_usable",
    "C19_old_conditions_kept_refuted"
   ],
   "note": ""
  },
  {
   "property": "C20",
   "status": "partial",
   "theorems": [
    "C20_value_at_an_index",
    "C20_order_zero",
    "C20_negative_rejected",
    "C20_other_types_rejected",
    "C20_index_in_a_gap_refuted",
    "C20_fraction_refuted",
    "C20_order_zero_refuted"
   ],
   "note": ""
  },
  {
   "property": "C21",
   "status": "proved",
   "theorems": [
    "C21_order_1_by_sums",
    "C21_order_1_from_special_solution",
    "C21_order_1_undetermined_coefficients"
   ],
   "note": ""
  },
  {
   "property": "C22",
   "status": "proved",
   "theorems": [
    "C22_variable_coefficient"
   ],
   "note": ""
  },
  {
   "property": "C23",
   "status": "proved",
   "theorems": [
    "C23_fundamental_solution",
    "C23_solve_old",
    "C23_solve_new",
    "C23_lsolve_contract",
    "C23_characteristic_equation"
   ],
   "note": ""
  },
  {
   "property": "C24",
   "status": "partial",
   "theorems": [
    "C24_order_reduction",
    "C24_first_valid_index_refuted",
    "C24_expanded_mod",
    "C24_expanded_initial_condition",
    "C24_roots_of_unity"
   ],
   "note": ""
  },
  {
   "property": "C25",
   "status": "partial",
   "theorems": [
    "C25_equivalence",
    "C25_equivalence_upper_n",
    "C25_solution",
    "C25_solution_upper_n",
    "C25_weight_minus_one_partial",
    "C25_weight_minus_one_refuted",
    "C25_weight_one_normal_form",
    "C25_weight_one_refuted"
   ],
   "note": ""
  },
  {
   "property": "C26",
   "status": "partial",
   "theorems": [
    "C26_collect_term",
    "C26_linear",
    "C26_below_partial",
    "C26_at_partial",
    "C26_one_partial",
    "C26_shift",
    "C26_first_order",
    "C26_factor_k_refuted",
    "C26_second_sum_refuted"
   ],
   "note": ""
  },
  {
   "property": "C27",
   "status": "proved",
   "theorems": [
    "C27_logarithms",
    "C27_simple_recognised",
    "C27_simple_positive",
    "C27_simple_natural"
   ],
   "note": ""
  },
  {
   "property": "C28",
   "status": "partial",
   "theorems": [
    "C28_upper",
    "C28_upper_found",
    "C28_negative_addends_partial",
    "C28_minus_n_refuted"
   ],
   "note": ""
  },
  {
   "property": "C29",
   "status": "partial",
   "theorems": [
    "C29_lower_partial",
    "C29_lower_constant",
    "C29_lower_linear",
    "C29_small_coefficient_refuted",
    "C29_initial_refuted",
    "C29_minus_n_refuted",
    "C29_square_root_refuted"
   ],
   "note": ""
  },
  {
   "property": "C30",
   "status": "partial",
   "theorems": [
    "C30_direct_partial",
    "C30_difference_partial",
    "C30_small_base_refuted",
    "C30_negative_refuted",
    "C30_difference_refuted",
    "C30_logarithm_refuted",
    "C30_power_refuted"
   ],
   "note": ""
  },
  {
   "property": "C31",
   "status": "partial",
   "theorems": [
    "C31_numeric_partial",
    "C31_conditions_exist",
    "C31_symbolic_partial",
    "C31_wrong_solution_refuted",
    "C31_single_condition_refuted",
    "C31_order_zero",
    "C31_reduced"
   ],
   "note": ""
  },
  {
   "property": "C32",
   "status": "partial",
   "theorems": [
    "C32_exponential_sums",
    "C32_tests_partial",
    "C32_bare_n_refuted"
   ],
   "note": ""
  },
  {
   "property": "C33",
   "status": "partial",
   "theorems": [
    "C33_sound",
    "C33_sound_upper_n",
    "C33_weight_minus_one_refuted"
   ],
   "note": ""
  },
  {
   "property": "C34",
   "status": "partial",
   "theorems": [
    "C34_everything_accepted_refuted",
    "C34_wrong_bound_refuted",
    "C34_exact_first",
    "C34_inequalities",
    "C34_step_partial",
    "C34_base_partial"
   ],
   "note": ""
  },
  {
   "property": "C35",
   "status": "proved",
   "theorems": [
    "C35_quadratic",
    "C35_cubic",
    "C35_quartic",
    "C35_quartic_defined",
    "C35_principal_root"
   ],
   "note": ""
  },
  {
   "property": "C36",
   "status": "proved",
   "theorems": [
    "C36_nested",
    "C36_constant"
   ],
   "note": ""
  },
  {
   "property": "C37",
   "status": "proved",
   "theorems": [
    "C37_sound",
    "C37_complete"
   ],
   "note": ""
  },
  {
   "property": "C38",
   "status": "partial",
   "theorems": [
    "C38_simple_roots_partial",
    "C38_split_partial",
    "C38_root_set_partial",
    "C38_power_root_set_partial",
    "C38_multiplicity_refuted"
   ],
   "note": ""
  },
  {
   "property": "C39",
   "status": "partial",
   "theorems": [
    "C39_unit_quotient_partial",
    "C39_exchanged_refuted",
    "C39_duplicate_refuted"
   ],
   "note": ""
  },
  {
   "property": "C40",
   "status": "partial",
   "theorems": [
    "C40_same_solutions",
    "C40_standard_form",
    "C40_largest_shift",
    "C40_leading_coefficient_partial",
    "C40_leading_coefficient_refuted"
   ],
   "note": ""
  },
  {
   "property": "C41",
   "status": "partial",
   "theorems": [
    "C41_power_unsolvable_refuted",
    "C41_power_indeterminate_refuted",
    "C41_solved_for_xn",
    "C41_multiple",
    "C41_multiple_refuted",
    "C41_shifted",
    "C41_shifted_refuted",
    "C41_unsolvable",
    "C41_unsolvable_refuted",
    "C41_indeterminate"
   ],
   "note": ""
  },
  {
   "property": "C42",
   "status": "partial",
   "theorems": [
    "C42_finite_order",
    "C42_order_and_gcd",
    "C42_constant_coefficients",
    "C42_functional_partial",
    "C42_functional_refuted",
    "C42_inhomogeneous_term_refuted"
   ],
   "note": ""
  },
  {
   "property": "C43",
   "status": "proved",
   "theorems": [
    "C43_resultant_roots",
    "C43_step_two",
    "C43_gosper",
    "C43_gosper_reduced"
   ],
   "note": ""
  },
  {
   "property": "C44",
   "status": "proved",
   "theorems": [
    "C44_degree_bound",
    "C44_step_three",
    "C44_complete"
   ],
   "note": ""
  },
  {
   "property": "C45",
   "status": "partial",
   "theorems": [
    "C45_product_partial",
    "C45_index",
    "C45_shift",
    "C45_lower_refuted",
    "C45_fraction_refuted",
    "C45_before_zero_refuted",
    "C45_from_zero_refuted",
    "C45_unit_refuted"
   ],
   "note": ""
  },
  {
   "property": "C46",
   "status": "partial",
   "theorems": [
    "C46_compute_sum_partial",
    "C46_other_limits",
    "C46_split_sum",
    "C46_simplify_sum_partial",
    "C46_collect_sums_partial",
    "C46_negative_lower_refuted",
    "C46_upper_symbol_refuted",
    "C46_mixed_refuted",
    "C46_fraction_refuted"
   ],
   "note": ""
  },
  {
   "property": "C47",
   "status": "proved",
   "theorems": [
    "C47_polynomial_part"
   ],
   "note": ""
  },
  {
   "property": "C48",
   "status": "proved",
   "theorems": [
    "C48_exp_poly"
   ],
   "note": ""
  },
  {
   "property": "C49",
   "status": "partial",
   "theorems": [
    "C49_factorials_partial",
    "C49_symbol_refuted",
    "C49_repeated_refuted"
   ],
   "note": ""
  },
  {
   "property": "C50",
   "status": "partial",
   "theorems": [
    "C50_split",
    "C50_no_ratio_partial",
    "C50_factorize_partial",
    "C50_same_base_refuted"
   ],
   "note": ""
  },
  {
   "property": "C51",
   "status": "partial",
   "theorems": [
    "C51_quotient_partial",
    "C51_root_refuted"
   ],
   "note": ""
  },
  {
   "property": "C52",
   "status": "partial",
   "theorems": [
    "C52_conversion_undefined_refuted",
    "C52_conversion_exact_partial"
   ],
   "note": ""
  },
  {
   "property": "C53",
   "status": "partial",
   "theorems": [
    "C53_positive",
    "C53_zero",
    "C53_defined",
    "C53_negative",
    "C53_index_one_refuted",
    "C53_index_four_refuted",
    "C53_product",
    "C53_product_negative_refuted"
   ],
   "note": ""
  },
  {
   "property": "C54",
   "status": "partial",
   "theorems": [
    "C54_perfect_power",
    "C54_exponent_zero_refuted"
   ],
   "note": ""
  },
  {
   "property": "C55",
   "status": "partial",
   "theorems": [
    "C55_decompose_factorial_partial",
    "C55_other_factorials",
    "C55_factorials_and_exponentials_partial",
    "C55_binomial_partial",
    "C55_binomials_partial",
    "C55_factorials_refuted",
    "C55_binomials_refuted",
    "C55_exponents_refuted"
   ],
   "note": ""
  },
  {
   "property": "C56",
   "status": "partial",
   "theorems": [
    "C56_perfect_power",
    "C56_integer_base",
    "C56_elementary_partial",
    "C56_power_partial",
    "C56_power_of_quotient",
    "C56_quotient_partial",
    "C56_quotient_cancels",
    "C56_simplify_log_partial",
    "C56_power_refuted",
    "C56_quotient_refuted",
    "C56_elementary_refuted",
    "C56_negative_fraction_refuted"
   ],
   "note": ""
  },
  {
   "property": "C57",
   "status": "partial",
   "theorems": [
    "C57_same_exponents",
    "C57_exponents_merged",
    "C57_same_base",
    "C57_absorbed_factors_partial",
    "C57_bases_merged",
    "C57_collect_partial",
    "C57_absorbed_factors_refuted"
   ],
   "note": ""
  },
  {
   "property": "C58",
   "status": "partial",
   "theorems": [
    "C58_sylvester",
    "C58_sylvester_vanishes",
    "C58_value",
    "C58_vanishes",
    "C58_wrap_refuted"
   ],
   "note": ""
  },
  {
   "property": "C59",
   "status": "partial",
   "theorems": [
    "C59_max_guarded_partial",
    "C59_max_affine_partial",
    "C59_max_refuted"
   ],
   "note": ""
  },
  {
   "property": "C60",
   "status": "partial",
   "theorems": [
    "C60_half_argument_refuted",
    "C60_different_bounds",
    "C60_coinciding_bounds_exact_first",
    "C60_coinciding_bounds_one_first",
    "C60_both_bounds_first_gives_one",
    "C60_after_both_bounds_refuted"
   ],
   "note": ""
  },
  {
   "property": "C61",
   "status": "partial",
   "theorems": [
    "C61_renaming_keeps_expansions",
    "C61_other_definitions_refuted",
    "C61_same_name_refuted",
    "C61_termination_refuted"
   ],
   "note": ""
  },
  {
   "property": "C62",
   "status": "partial",
   "theorems": [
    "C62_memory_is_safe_without_sharing",
    "C62_no_leak_without_forgetting",
    "C62_copies_refuted",
    "C62_copy_used_refuted",
    "C62_leak_refuted"
   ],
   "note": ""
  },
  {
   "property": "C63",
   "status": "proved",
   "theorems": [
    "C63_success_is_readable",
    "C63_refusal_is_explained"
   ],
   "note": ""
  },
  {
   "property": "C64",
   "status": "partial",
   "theorems": [
    "C64_never_decreases",
    "C64_defined_partial",
    "C64_double_logarithm",
    "C64_least",
    "C64_monotonicity_test",
    "C64_vanishing_denominator_refuted",
    "C64_exponent_refuted",
    "C64_logarithm_refuted",
    "C64_lost_roots_refuted"
   ],
   "note": ""
  },
  {
   "property": "C65",
   "status": "partial",
   "theorems": [
    "C65_value_partial",
    "C65_one_power",
    "C65_root_refuted",
    "C65_product_refuted"
   ],
   "note": ""
  },
  {
   "property": "C66",
   "status": "partial",
   "theorems": [
    "C66_linear",
    "C66_accepted",
    "C66_non_linear_partial",
    "C66_simple_partial",
    "C66_weighted_partial",
    "C66_weighted_later_partial",
    "C66_functional_partial",
    "C66_early_conditions_refuted",
    "C66_vanishing_coefficient_refuted",
    "C66_zero_missed_refuted",
    "C66_zero_refuted",
    "C66_weighted_refuted",
    "C66_functional_refuted"
   ],
   "note": ""
  },
  {
   "property": "C67",
   "status": "partial",
   "theorems": [
    "C67_output_partial",
    "C67_input_partial",
    "C67_numer_denom_partial",
    "C67_all_partial",
    "C67_root_of_square_refuted",
    "C67_sign_refuted",
    "C67_numer_denom_refuted"
   ],
   "note": ""
  },
  {
   "property": "C68",
   "status": "partial",
   "theorems": [
    "C68_step_two",
    "C68_telescopes",
    "C68_telescopes_reduced",
    "C68_recurrence",
    "C68_certificate",
    "C68_orders",
    "C68_dispersion_refuted",
    "C68_degree_refuted"
   ],
   "note": ""
  },
  {
   "property": "C69",
   "status": "partial",
   "theorems": [
    "C69_sum_partial",
    "C69_support_refuted",
    "C69_boundary_refuted"
   ],
   "note": ""
  },
  {
   "property": "C70",
   "status": "partial",
   "theorems": [
    "C70_rewriting_partial",
    "C70_inhomogeneous_partial",
    "C70_come_back",
    "C70_solution_partial",
    "C70_denominator_refuted",
    "C70_argument_refuted"
   ],
   "note": ""
  },
  {
   "property": "C71",
   "status": "partial",
   "theorems": [
    "C71_enclosure",
    "C71_closed_form",
    "C71_upper_partial",
    "C71_lower_partial",
    "C71_power_lower",
    "C71_exponential_forgotten_refuted",
    "C71_small_coefficient_refuted",
    "C71_condition_refuted"
   ],
   "note": ""
  },
  {
   "property": "C72",
   "status": "partial",
   "theorems": [
    "C72_constant",
    "C72_upper_partial",
    "C72_lower_partial",
    "C72_exchanged_refuted",
    "C72_small_exponent_refuted",
    "C72_small_initial_refuted"
   ],
   "note": ""
  },
  {
   "property": "C73",
   "status": "partial",
   "theorems": [
    "C73_product_x86_partial",
    "C73_product_32_partial",
    "C73_found",
    "C73_undefined_refuted",
    "C73_dropped_byte_refuted",
    "C73_wrong_factor_refuted",
    "C73_sign_refuted"
   ],
   "note": ""
  },
  {
   "property": "C74",
   "status": "proved",
   "theorems": [
    "C74_primitive",
    "C74_unique",
    "C74_zero",
    "C74_general_gcd",
    "C74_gosper"
   ],
   "note": ""
  },
  {
   "property": "C75",
   "status": "partial",
   "theorems": [
    "C75_value",
    "C75_any_argument",
    "C75_hidden",
    "C75_refused",
    "C75_one_symbol_refuted"
   ],
   "note": ""
  },
  {
   "property": "C76",
   "status": "partial",
   "theorems": [
    "C76_one_variable_partial",
    "C76_initial_condition_partial",
    "C76_number_argument_refuted",
    "C76_outside_refuted",
    "C76_difference_refuted",
    "C76_sum_refuted",
    "C76_left_over_refuted",
    "C76_two_conditions_refuted",
    "C76_capture_refuted"
   ],
   "note": ""
  },
  {
   "property": "C77",
   "status": "partial",
   "theorems": [
    "C77_provably_numeric",
    "C77_provably_symbolic",
    "C77_partially_correct_partial",
    "C77_unchecked",
    "C77_breaks_refuted",
    "C77_others"
   ],
   "note": ""
  },
  {
   "property": "C78",
   "status": "partial",
   "theorems": [
    "C78_solution",
    "C78_values_exist",
    "C78_with_root_finder_partial",
    "C78_exchanged_refuted"
   ],
   "note": ""
  },
  {
   "property": "C79",
   "status": "partial",
   "theorems": [
    "C79_range",
    "C79_inhomogeneous_term_partial",
    "C79_coefficient_partial",
    "C79_functional_partial",
    "C79_numerator_refuted",
    "C79_order_two_refuted"
   ],
   "note": ""
  },
  {
   "property": "C80",
   "status": "proved",
   "theorems": [
    "C80_cached",
    "C80_answers",
    "C80_failures",
    "C80_same_solutions",
    "C80_success"
   ],
   "note": ""
  },
  {
   "property": "C81",
   "status": "partial",
   "theorems": [
    "C81_solution_partial",
    "C81_lower_limit_refuted"
   ],
   "note": ""
  },
  {
   "property": "C82",
   "status": "partial",
   "theorems": [
    "C82_reduced_partial",
    "C82_first_index_partial",
    "C82_not_reduced",
    "C82_values_exist",
    "C82_denominator_refuted"
   ],
   "note": ""
  },
  {
   "property": "C83",
   "status": "partial",
   "theorems": [
    "C83_below_partial",
    "C83_at_partial",
    "C83_minus_one_partial",
    "C83_index_one_refuted",
    "C83_weight_minus_one_refuted",
    "C83_first_index_refuted"
   ],
   "note": ""
  },
  {
   "property": "C84",
   "status": "proved",
   "theorems": [
    "C84_empty",
    "C84_contains_value",
    "C84_intersection",
    "C84_hull",
    "C84_subset_eq",
    "C84_subset",
    "C84_equal",
    "C84_compare",
    "C84_compare_equal"
   ],
   "note": ""
  },
  {
   "property": "C85",
   "status": "partial",
   "theorems": [
    "C85_add",
    "C85_sub",
    "C85_mul",
    "C85_div_partial",
    "C85_neg",
    "C85_abs",
    "C85_sqr_partial",
    "C85_functions",
    "C85_round",
    "C85_quotient_partial",
    "C85_min_max_partial",
    "C85_evaluation",
    "C85_sqr_refuted",
    "C85_div_refuted",
    "C85_div_zero_refuted",
    "C85_min_refuted",
    "C85_rounding_refuted",
    "C85_add_tight",
    "C85_sub_tight"
   ],
   "note": ""
  },
  {
   "property": "C86",
   "status": "partial",
   "theorems": [
    "C86_constructor_partial",
    "C86_results_partial",
    "C86_neg_refuted",
    "C86_mul_refuted",
    "C86_add_refuted",
    "C86_exp_refuted",
    "C86_large_refuted"
   ],
   "note": ""
  },
  {
   "property": "C87",
   "status": "partial",
   "theorems": [
    "C87_widening_contains",
    "C87_widening_stops",
    "C87_narrowing_between",
    "C87_narrowing_stops",
    "C87_widening_integers_refuted"
   ],
   "note": ""
  },
  {
   "property": "C88",
   "status": "partial",
   "theorems": [
    "C88_found",
    "C88_found_only",
    "C88_negative_refuted"
   ],
   "note": ""
  },
  {
   "property": "C89",
   "status": "partial",
   "theorems": [
    "C89_well_formed_partial",
    "C89_escape_refuted"
   ],
   "note": ""
  },
  {
   "property": "C90",
   "status": "partial",
   "theorems": [
    "C90_mathml_partial",
    "C90_decimal_refuted",
    "C90_constant_refuted"
   ],
   "note": ""
  },
  {
   "property": "C91",
   "status": "partial",
   "theorems": [
    "C91_readable_partial",
    "C91_shared_name_refuted"
   ],
   "note": ""
  },
  {
   "property": "C92",
   "status": "partial",
   "theorems": [
    "C92_quotient_partial",
    "C92_single_fraction_partial"
   ],
   "note": ""
  },
  {
   "property": "C93",
   "status": "partial",
   "theorems": [
    "C93_range_is_the_single_calls",
    "C93_backwards_is_refused",
    "C93_values_over_an_interval",
    "C93_begin_outside_is_refused",
    "C93_nothing_computed_is_refused",
    "C93_empty_interval_refuted",
    "C93_begin_inside_is_enough_refuted"
   ],
   "note": ""
  },
  {
   "property": "C94",
   "status": "partial",
   "theorems": [
    "C94_differences_keep_the_value",
    "C94_other_root_refuted"
   ],
   "note": ""
  },
  {
   "property": "C95",
   "status": "partial",
   "theorems": [
    "C95_structures_exist",
    "C95_ok_accepts_partial",
    "C95_ok_rejects_order_zero",
    "C95_ok_accepts_refuted",
    "C95_default_constructor_refuted",
    "C95_ok_after_refusal_refuted",
    "C95_exception_refuted"
   ],
   "note": ""
  },
  {
   "property": "C96",
   "status": "partial",
   "theorems": [
    "C96_cos_partial",
    "C96_sin_partial",
    "C96_tan_partial",
    "C96_range",
    "C96_unmarked_refuted",
    "C96_pi_refuted"
   ],
   "note": ""
  },
  {
   "property": "C97",
   "status": "partial",
   "theorems": [
    "C97_range",
    "C97_natural",
    "C97_fraction",
    "C97_negative_refuted",
    "C97_zero_refuted",
    "C97_root_refuted"
   ],
   "note": ""
  },
  {
   "property": "C98",
   "status": "partial",
   "theorems": [
    "C98_gosper_ratio",
    "C98_hypergeometric",
    "C98_zeilberger",
    "C98_accepts_refuted"
   ],
   "note": ""
  },
  {
   "property": "C99",
   "status": "partial",
   "theorems": [
    "C99_order_two",
    "C99_replaced_difference",
    "C99_order_k",
    "C99_multiple_roots_partial",
    "C99_multiple_roots_refuted"
   ],
   "note": ""
  },
  {
   "property": "C100",
   "status": "partial",
   "theorems": [
    "C100_symbolic_sum_or_product",
    "C100_function_x",
    "C100_symbol",
    "C100_function_x_of",
    "C100_largest_index",
    "C100_largest_index_exception",
    "C100_rational_polynomial",
    "C100_rational_polynomial_refuted"
   ],
   "note": ""
  },
  {
   "property": "C101",
   "status": "partial",
   "theorems": [
    "C101_translation",
    "C101_integers",
    "C101_fractions",
    "C101_product_of_the_parts",
    "C101_numeric_part_partial",
    "C101_numeric_part_refuted",
    "C101_single_operand_refuted"
   ],
   "note": ""
  },
  {
   "property": "C102",
   "status": "partial",
   "theorems": [
    "C102_shift_partial",
    "C102_shift_refuted",
    "C102_change_of_variable",
    "C102_outside_is_kept",
    "C102_change_everywhere_refuted"
   ],
   "note": ""
  }
 ]
}