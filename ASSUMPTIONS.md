# What `Print Assumptions` lists

Generated by tools/assumptions.py. All axioms are of the standard library.

## Nothing (closed under the global context)

* C07_caches_are_transparent (BlackboardProps.v)
* C07_expansion_is_unique (BlackboardProps.v)
* C07_acyclic_definitions_expand (BlackboardProps.v)
* C08_find_symbol (BlackboardProps.v)
* C08_find_symbol_any_names_refuted (BlackboardProps.v)
* C08_find_symbol_defined_refuted (BlackboardProps.v)
* C10_size_is_number_of_nodes (BlackboardProps.v)
* C10_size_is_positive (BlackboardProps.v)
* C10_size_on_blackboard (BlackboardProps.v)
* C10_size_of_expansion_refuted (BlackboardProps.v)
* C61_renaming_keeps_expansions (BlackboardProps.v)
* C61_other_definitions_refuted (BlackboardProps.v)
* C61_same_name_refuted (BlackboardProps.v)
* C61_termination_refuted (BlackboardProps.v)
* C01_lor_exact (Bool3Props.v)
* C01_land_exact (Bool3Props.v)
* C01_lnot_exact (Bool3Props.v)
* C01_is_strong (Bool3Props.v)
* C01_stronger_eq (Bool3Props.v)
* C01_stronger (Bool3Props.v)
* C01_connectives_monotone (Bool3Props.v)
* C34_everything_accepted_refuted (BoundVProps.v)
* C34_exact_first (BoundVProps.v)
* C57_exponents_merged (CollectProps.v)
* C57_bases_merged (CollectProps.v)
* C66_linear (CondProps.v)
* C66_accepted (CondProps.v)
* C66_weighted_partial (CondProps.v)
* C66_weighted_later_partial (CondProps.v)
* C66_functional_partial (CondProps.v)
* C66_early_conditions_refuted (CondProps.v)
* C66_vanishing_coefficient_refuted (CondProps.v)
* C66_weighted_refuted (CondProps.v)
* C66_functional_refuted (CondProps.v)
* C80_cached (DrvProps.v)
* C80_answers (DrvProps.v)
* C80_failures (DrvProps.v)
* C80_success (DrvProps.v)
* C15_scalar_means_no_occurrence (ExprProps.v)
* C15_rational_scalar_refuted (ExprProps.v)
* C17_fully_distributed_refuted (ExprProps.v)
* C55_other_factorials (FactRwProps.v)
* C36_nested (FindRootProps.v)
* C36_constant (FindRootProps.v)
* C60_different_bounds (FuncEqProps.v)
* C43_resultant_roots (GosperProps.v)
* C43_step_two (GosperProps.v)
* C43_gosper (GosperProps.v)
* C43_gosper_reduced (GosperProps.v)
* C44_degree_bound (GosperProps.v)
* C44_step_three (GosperProps.v)
* C44_complete (GosperProps.v)
* C74_primitive (IPolProps.v)
* C74_unique (IPolProps.v)
* C74_zero (IPolProps.v)
* C74_general_gcd (IPolProps.v)
* C74_gosper (IPolProps.v)
* C02_gcd_correct (IntUtilProps.v)
* C02_gcd_nonneg (IntUtilProps.v)
* C02_gcd_undefined_iff (IntUtilProps.v)
* C02_lcm_vector (IntUtilProps.v)
* C03_partial_factor (IntUtilProps.v)
* C04_find_divisors_small (IntUtilProps.v)
* C04_find_divisors_large (IntUtilProps.v)
* C95_structures_exist (InvProps.v)
* C95_ok_accepts_partial (InvProps.v)
* C95_ok_rejects_order_zero (InvProps.v)
* C95_ok_accepts_refuted (InvProps.v)
* C95_default_constructor_refuted (InvProps.v)
* C95_ok_after_refusal_refuted (InvProps.v)
* C95_exception_refuted (InvProps.v)
* C56_power_of_quotient (LogProps.v)
* C56_quotient_cancels (LogProps.v)
* C89_well_formed_partial (MmlProps.v)
* C89_escape_refuted (MmlProps.v)
* C90_mathml_partial (MmlProps.v)
* C90_decimal_refuted (MmlProps.v)
* C90_constant_refuted (MmlProps.v)
* C91_readable_partial (MmlProps.v)
* C91_shared_name_refuted (MmlProps.v)
* C76_left_over_refuted (MultiProps.v)
* C77_others (NLVerProps.v)
* C09_names_are_distinct (NamesProps.v)
* C09_generated_symbols_recognised (NamesProps.v)
* C09_hypotheses_hold_of_an_instance (NamesProps.v)
* C99_order_two (NhpProps.v)
* C99_replaced_difference (NhpProps.v)
* C99_order_k (NhpProps.v)
* C99_multiple_roots_partial (NhpProps.v)
* C99_multiple_roots_refuted (NhpProps.v)
* C52_conversion_undefined_refuted (NumFormProps.v)
* C52_conversion_exact_partial (NumFormProps.v)
* C24_order_reduction (OrderRedProps.v)
* C24_first_valid_index_refuted (OrderRedProps.v)
* C24_expanded_mod (OrderRedProps.v)
* C24_expanded_initial_condition (OrderRedProps.v)
* C73_dropped_byte_refuted (PFacProps.v)
* C73_sign_refuted (PFacProps.v)
* C65_one_power (PowProps.v)
* C18_answers_concern_the_current_recurrence (RecProps.v)
* C18_no_undefined_behaviour (RecProps.v)
* C18_replace_recurrence_refuted (RecProps.v)
* C18_assignment_refuted (RecProps.v)
* C18_hypotheses_hold_of_an_instance (RecProps.v)
* C19_accepted_exactly_when_usable (RecProps.v)
* C19_old_conditions_kept_refuted (RecProps.v)
* C20_negative_rejected (RecProps.v)
* C20_other_types_rejected (RecProps.v)
* C20_index_in_a_gap_refuted (RecProps.v)
* C20_order_zero_refuted (RecProps.v)
* C60_coinciding_bounds_exact_first (RecProps.v)
* C60_coinciding_bounds_one_first (RecProps.v)
* C60_both_bounds_first_gives_one (RecProps.v)
* C60_after_both_bounds_refuted (RecProps.v)
* C62_memory_is_safe_without_sharing (RecProps.v)
* C62_no_leak_without_forgetting (RecProps.v)
* C62_copies_refuted (RecProps.v)
* C62_copy_used_refuted (RecProps.v)
* C62_leak_refuted (RecProps.v)
* C63_success_is_readable (RecProps.v)
* C63_refusal_is_explained (RecProps.v)
* C58_sylvester (ResProps.v)
* C58_sylvester_vanishes (ResProps.v)
* C58_value (ResProps.v)
* C58_vanishes (ResProps.v)
* C58_wrap_refuted (ResProps.v)
* C93_range_is_the_single_calls (RngProps.v)
* C93_backwards_is_refused (RngProps.v)
* C93_nothing_computed_is_refused (RngProps.v)
* C93_empty_interval_refuted (RngProps.v)
* C93_begin_inside_is_enough_refuted (RngProps.v)
* C21_order_1_by_sums (SolverProps.v)
* C21_order_1_from_special_solution (SolverProps.v)
* C21_order_1_undetermined_coefficients (SolverProps.v)
* C22_variable_coefficient (SolverProps.v)
* C23_fundamental_solution (SolverProps.v)
* C23_solve_old (SolverProps.v)
* C23_solve_new (SolverProps.v)
* C23_lsolve_contract (SolverProps.v)
* C23_characteristic_equation (SolverProps.v)
* C75_refused (SqrProps.v)
* C100_symbolic_sum_or_product (SrchProps.v)
* C100_function_x (SrchProps.v)
* C100_symbol (SrchProps.v)
* C100_function_x_of (SrchProps.v)
* C05_sum_poly_times_exponentials (SumPolyProps.v)
* C05_sum_poly (SumPolyProps.v)
* C05_sum_poly_alt (SumPolyProps.v)
* C05_poly_dec (SumPolyProps.v)
* C05_sum_falling_times_exp (SumPolyProps.v)
* C32_exponential_sums (VerifyProps.v)
* C31_conditions_exist (VerifyProps.v)
* C31_order_zero (VerifyProps.v)
* C31_reduced (VerifyProps.v)
* C25_equivalence (WAvgProps.v)
* C25_equivalence_upper_n (WAvgProps.v)
* C25_solution (WAvgProps.v)
* C25_solution_upper_n (WAvgProps.v)
* C25_weight_minus_one_partial (WAvgProps.v)
* C25_weight_minus_one_refuted (WAvgProps.v)
* C25_weight_one_normal_form (WAvgProps.v)
* C25_weight_one_refuted (WAvgProps.v)
* C33_sound (WAvgProps.v)
* C33_sound_upper_n (WAvgProps.v)
* C33_weight_minus_one_refuted (WAvgProps.v)
* C68_step_two (ZeilProps.v)
* C68_telescopes (ZeilProps.v)
* C68_telescopes_reduced (ZeilProps.v)
* C68_recurrence (ZeilProps.v)
* C68_certificate (ZeilProps.v)
* C68_orders (ZeilProps.v)
* C68_dispersion_refuted (ZeilProps.v)
* C68_degree_refuted (ZeilProps.v)
* C69_sum_partial (ZeilProps.v)
* C69_support_refuted (ZeilProps.v)
* C69_boundary_refuted (ZeilProps.v)
* C101_integers (GiacProps.v)
* C101_fractions (GiacProps.v)

## `ClassicalDedekindReals.sig_forall_dec`, `FunctionalExtensionality.functional_extensionality_dep`

* C34_wrong_bound_refuted (BoundVProps.v)
* C42_order_and_gcd (ClassProps.v)
* C64_never_decreases (DomProps.v)
* C64_least (DomProps.v)
* C64_monotonicity_test (DomProps.v)
* C79_range (DrvProps.v)
* C40_largest_shift (ElimProps.v)
* C11_floor_of_a_number (ExprProps.v)
* C11_mod_of_integers (ExprProps.v)
* C11_mod_of_rationals_refuted (ExprProps.v)
* C12_sum_limits_are_integers (ExprProps.v)
* C14_close_numbers_refuted (ExprProps.v)
* C84_empty (IvlProps.v)
* C84_contains_value (IvlProps.v)
* C84_intersection (IvlProps.v)
* C84_hull (IvlProps.v)
* C84_subset_eq (IvlProps.v)
* C84_subset (IvlProps.v)
* C84_equal (IvlProps.v)
* C84_compare (IvlProps.v)
* C84_compare_equal (IvlProps.v)
* C85_add (IvlProps.v)
* C85_sub (IvlProps.v)
* C85_mul (IvlProps.v)
* C85_div_partial (IvlProps.v)
* C85_neg (IvlProps.v)
* C85_abs (IvlProps.v)
* C85_sqr_partial (IvlProps.v)
* C85_round (IvlProps.v)
* C85_quotient_partial (IvlProps.v)
* C85_min_max_partial (IvlProps.v)
* C85_evaluation (IvlProps.v)
* C85_sqr_refuted (IvlProps.v)
* C85_div_refuted (IvlProps.v)
* C85_div_zero_refuted (IvlProps.v)
* C85_min_refuted (IvlProps.v)
* C85_rounding_refuted (IvlProps.v)
* C86_constructor_partial (IvlProps.v)
* C86_results_partial (IvlProps.v)
* C86_neg_refuted (IvlProps.v)
* C86_mul_refuted (IvlProps.v)
* C86_add_refuted (IvlProps.v)
* C86_large_refuted (IvlProps.v)
* C87_widening_contains (IvlProps.v)
* C87_widening_stops (IvlProps.v)
* C87_narrowing_between (IvlProps.v)
* C87_narrowing_stops (IvlProps.v)
* C87_widening_integers_refuted (IvlProps.v)
* C88_found (IvlProps.v)
* C88_found_only (IvlProps.v)
* C88_negative_refuted (IvlProps.v)
* C85_add_tight (IvlTightProps.v)
* C85_sub_tight (IvlTightProps.v)
* C56_perfect_power (LogProps.v)
* C73_product_x86_partial (PFacProps.v)
* C73_product_32_partial (PFacProps.v)
* C73_found (PFacProps.v)
* C73_undefined_refuted (PFacProps.v)
* C73_wrong_factor_refuted (PFacProps.v)
* C20_value_at_an_index (RecProps.v)
* C20_order_zero (RecProps.v)
* C20_fraction_refuted (RecProps.v)
* C93_values_over_an_interval (RngProps.v)
* C93_begin_outside_is_refused (RngProps.v)
* C100_largest_index (SrchProps.v)
* C100_largest_index_exception (SrchProps.v)
* C46_other_limits (SumSimpProps.v)

## `ClassicalDedekindReals.sig_forall_dec`, `functional_extensionality_dep`

* C71_enclosure (GenBndProps.v)

## `ClassicalDedekindReals.sig_forall_dec`, `ClassicalDedekindReals.sig_not_dec`, `FunctionalExtensionality.functional_extensionality_dep`

* C24_roots_of_unity (OrderRedProps.v)
* C06_cosine_angle_zero (TrigProps.v)
* C06_poles (TrigProps.v)
* C06_poles_refuted (TrigProps.v)
* C06_sine_refuted (TrigProps.v)

## `ClassicalDedekindReals.sig_forall_dec`, `ClassicalDedekindReals.sig_not_dec`, `Classical_Prop.classic`, `FunctionalExtensionality.functional_extensionality_dep`

* C07_expansion_has_the_same_value (BlackboardProps.v)
* C34_inequalities (BoundVProps.v)
* C34_step_partial (BoundVProps.v)
* C34_base_partial (BoundVProps.v)
* C78_solution (CSolProps.v)
* C78_values_exist (CSolProps.v)
* C78_with_root_finder_partial (CSolProps.v)
* C78_exchanged_refuted (CSolProps.v)
* C42_finite_order (ClassProps.v)
* C42_constant_coefficients (ClassProps.v)
* C42_functional_partial (ClassProps.v)
* C42_functional_refuted (ClassProps.v)
* C42_inhomogeneous_term_refuted (ClassProps.v)
* C41_power_unsolvable_refuted (ClassProps.v)
* C41_power_indeterminate_refuted (ClassProps.v)
* C57_same_exponents (CollectProps.v)
* C57_same_base (CollectProps.v)
* C57_absorbed_factors_partial (CollectProps.v)
* C57_collect_partial (CollectProps.v)
* C57_absorbed_factors_refuted (CollectProps.v)
* C66_non_linear_partial (CondProps.v)
* C66_simple_partial (CondProps.v)
* C66_zero_missed_refuted (CondProps.v)
* C66_zero_refuted (CondProps.v)
* C47_polynomial_part (DecompProps.v)
* C48_exp_poly (DecompProps.v)
* C49_factorials_partial (DecompProps.v)
* C49_symbol_refuted (DecompProps.v)
* C49_repeated_refuted (DecompProps.v)
* C64_defined_partial (DomProps.v)
* C64_double_logarithm (DomProps.v)
* C64_vanishing_denominator_refuted (DomProps.v)
* C64_exponent_refuted (DomProps.v)
* C64_logarithm_refuted (DomProps.v)
* C64_lost_roots_refuted (DomProps.v)
* C79_inhomogeneous_term_partial (DrvProps.v)
* C79_coefficient_partial (DrvProps.v)
* C79_functional_partial (DrvProps.v)
* C79_numerator_refuted (DrvProps.v)
* C79_order_two_refuted (DrvProps.v)
* C80_same_solutions (DrvProps.v)
* C40_same_solutions (ElimProps.v)
* C40_standard_form (ElimProps.v)
* C40_leading_coefficient_partial (ElimProps.v)
* C40_leading_coefficient_refuted (ElimProps.v)
* C41_solved_for_xn (ElimProps.v)
* C41_multiple (ElimProps.v)
* C41_multiple_refuted (ElimProps.v)
* C41_shifted (ElimProps.v)
* C41_shifted_refuted (ElimProps.v)
* C41_unsolvable (ElimProps.v)
* C41_unsolvable_refuted (ElimProps.v)
* C41_indeterminate (ElimProps.v)
* C11_floor_preserves_value (ExprProps.v)
* C11_mod_of_shifted_symbol (ExprProps.v)
* C11_mod_of_rational_shift_refuted (ExprProps.v)
* C11_binom_of_numbers (ExprProps.v)
* C12_sum_with_numeric_limits (ExprProps.v)
* C12_sum_with_symbolic_limit (ExprProps.v)
* C12_empty_symbolic_range_refuted (ExprProps.v)
* C13_product_with_numeric_limits (ExprProps.v)
* C13_product_with_symbolic_limit (ExprProps.v)
* C13_product_with_shifted_limit (ExprProps.v)
* C13_shifted_limit_refuted (ExprProps.v)
* C14_max_and_min (ExprProps.v)
* C14_negative_parameter_refuted (ExprProps.v)
* C15_scalar_value_is_independent (ExprProps.v)
* C15_polynomial (ExprProps.v)
* C15_integer_scalar (ExprProps.v)
* C15_integer_polynomial (ExprProps.v)
* C15_rational_scalar (ExprProps.v)
* C15_integer_scalar_with_functions_refuted (ExprProps.v)
* C15_no_x_function (ExprProps.v)
* C16_substitute_acts_on_values (ExprProps.v)
* C16_capture_refuted (ExprProps.v)
* C17_distribute_preserves_value (ExprProps.v)
* C50_split (FactProps.v)
* C50_no_ratio_partial (FactProps.v)
* C50_factorize_partial (FactProps.v)
* C50_same_base_refuted (FactProps.v)
* C51_quotient_partial (FactProps.v)
* C51_root_refuted (FactProps.v)
* C55_decompose_factorial_partial (FactRwProps.v)
* C55_factorials_and_exponentials_partial (FactRwProps.v)
* C55_binomial_partial (FactRwProps.v)
* C55_binomials_partial (FactRwProps.v)
* C55_factorials_refuted (FactRwProps.v)
* C55_binomials_refuted (FactRwProps.v)
* C55_exponents_refuted (FactRwProps.v)
* C37_sound (FindRootProps.v)
* C37_complete (FindRootProps.v)
* C38_simple_roots_partial (FindRootProps.v)
* C38_split_partial (FindRootProps.v)
* C38_root_set_partial (FindRootProps.v)
* C38_power_root_set_partial (FindRootProps.v)
* C38_multiplicity_refuted (FindRootProps.v)
* C39_unit_quotient_partial (FindRootProps.v)
* C39_exchanged_refuted (FindRootProps.v)
* C39_duplicate_refuted (FindRootProps.v)
* C92_quotient_partial (FracProps.v)
* C92_single_fraction_partial (FracProps.v)
* C28_upper (FuncEqProps.v)
* C28_upper_found (FuncEqProps.v)
* C28_negative_addends_partial (FuncEqProps.v)
* C28_minus_n_refuted (FuncEqProps.v)
* C29_lower_partial (FuncEqProps.v)
* C29_lower_constant (FuncEqProps.v)
* C29_lower_linear (FuncEqProps.v)
* C29_small_coefficient_refuted (FuncEqProps.v)
* C29_initial_refuted (FuncEqProps.v)
* C29_minus_n_refuted (FuncEqProps.v)
* C29_square_root_refuted (FuncEqProps.v)
* C60_half_argument_refuted (FuncEqProps.v)
* C101_translation (GiacProps.v)
* C101_product_of_the_parts (GiacProps.v)
* C101_numeric_part_partial (GiacProps.v)
* C101_numeric_part_refuted (GiacProps.v)
* C101_single_operand_refuted (GiacProps.v)
* C98_gosper_ratio (HypProps.v)
* C98_hypergeometric (HypProps.v)
* C98_zeilberger (HypProps.v)
* C98_accepts_refuted (HypProps.v)
* C97_range (IpwProps.v)
* C97_natural (IpwProps.v)
* C97_fraction (IpwProps.v)
* C97_negative_refuted (IpwProps.v)
* C97_zero_refuted (IpwProps.v)
* C97_root_refuted (IpwProps.v)
* C96_cos_partial (ItgProps.v)
* C96_sin_partial (ItgProps.v)
* C96_tan_partial (ItgProps.v)
* C96_range (ItgProps.v)
* C96_unmarked_refuted (ItgProps.v)
* C96_pi_refuted (ItgProps.v)
* C85_functions (IvlProps.v)
* C86_exp_refuted (IvlProps.v)
* C56_integer_base (LogProps.v)
* C56_elementary_partial (LogProps.v)
* C56_power_partial (LogProps.v)
* C56_quotient_partial (LogProps.v)
* C56_simplify_log_partial (LogProps.v)
* C56_power_refuted (LogProps.v)
* C56_quotient_refuted (LogProps.v)
* C56_elementary_refuted (LogProps.v)
* C56_negative_fraction_refuted (LogProps.v)
* C59_max_guarded_partial (MaxProps.v)
* C59_max_affine_partial (MaxProps.v)
* C59_max_refuted (MaxProps.v)
* C30_direct_partial (MonoProps.v)
* C30_difference_partial (MonoProps.v)
* C30_small_base_refuted (MonoProps.v)
* C30_negative_refuted (MonoProps.v)
* C30_difference_refuted (MonoProps.v)
* C30_logarithm_refuted (MonoProps.v)
* C30_power_refuted (MonoProps.v)
* C76_one_variable_partial (MultiProps.v)
* C76_initial_condition_partial (MultiProps.v)
* C76_number_argument_refuted (MultiProps.v)
* C76_outside_refuted (MultiProps.v)
* C76_difference_refuted (MultiProps.v)
* C76_sum_refuted (MultiProps.v)
* C76_two_conditions_refuted (MultiProps.v)
* C76_capture_refuted (MultiProps.v)
* C77_provably_numeric (NLVerProps.v)
* C77_provably_symbolic (NLVerProps.v)
* C77_partially_correct_partial (NLVerProps.v)
* C77_unchecked (NLVerProps.v)
* C77_breaks_refuted (NLVerProps.v)
* C09_symbols_are_renamed_apart (NamesProps.v)
* C72_constant (NonBndProps.v)
* C72_upper_partial (NonBndProps.v)
* C72_lower_partial (NonBndProps.v)
* C72_exchanged_refuted (NonBndProps.v)
* C72_small_exponent_refuted (NonBndProps.v)
* C72_small_initial_refuted (NonBndProps.v)
* C27_logarithms (NonLinProps.v)
* C27_simple_recognised (NonLinProps.v)
* C27_simple_positive (NonLinProps.v)
* C27_simple_natural (NonLinProps.v)
* C53_positive (NumFormProps.v)
* C53_zero (NumFormProps.v)
* C53_defined (NumFormProps.v)
* C53_negative (NumFormProps.v)
* C53_index_one_refuted (NumFormProps.v)
* C53_index_four_refuted (NumFormProps.v)
* C53_product (NumFormProps.v)
* C53_product_negative_refuted (NumFormProps.v)
* C54_perfect_power (NumFormProps.v)
* C54_exponent_zero_refuted (NumFormProps.v)
* C65_value_partial (PowProps.v)
* C65_root_refuted (PowProps.v)
* C65_product_refuted (PowProps.v)
* C45_product_partial (ProdProps.v)
* C45_index (ProdProps.v)
* C45_shift (ProdProps.v)
* C45_lower_refuted (ProdProps.v)
* C45_fraction_refuted (ProdProps.v)
* C45_before_zero_refuted (ProdProps.v)
* C45_from_zero_refuted (ProdProps.v)
* C45_unit_refuted (ProdProps.v)
* C94_differences_keep_the_value (PwdProps.v)
* C94_other_root_refuted (PwdProps.v)
* C82_reduced_partial (RSolProps.v)
* C82_first_index_partial (RSolProps.v)
* C82_not_reduced (RSolProps.v)
* C82_values_exist (RSolProps.v)
* C82_denominator_refuted (RSolProps.v)
* C35_quadratic (RootProps.v)
* C35_cubic (RootProps.v)
* C35_quartic (RootProps.v)
* C35_quartic_defined (RootProps.v)
* C35_principal_root (RootProps.v)
* C67_output_partial (SimpDrvProps.v)
* C67_input_partial (SimpDrvProps.v)
* C67_numer_denom_partial (SimpDrvProps.v)
* C67_all_partial (SimpDrvProps.v)
* C67_root_of_square_refuted (SimpDrvProps.v)
* C67_sign_refuted (SimpDrvProps.v)
* C67_numer_denom_refuted (SimpDrvProps.v)
* C75_value (SqrProps.v)
* C75_any_argument (SqrProps.v)
* C75_hidden (SqrProps.v)
* C75_one_symbol_refuted (SqrProps.v)
* C100_rational_polynomial (SrchProps.v)
* C100_rational_polynomial_refuted (SrchProps.v)
* C46_compute_sum_partial (SumSimpProps.v)
* C46_split_sum (SumSimpProps.v)
* C46_simplify_sum_partial (SumSimpProps.v)
* C46_collect_sums_partial (SumSimpProps.v)
* C46_negative_lower_refuted (SumSimpProps.v)
* C46_upper_symbol_refuted (SumSimpProps.v)
* C46_mixed_refuted (SumSimpProps.v)
* C46_fraction_refuted (SumSimpProps.v)
* C06_cosine (TrigProps.v)
* C06_sine_differences_partial (TrigProps.v)
* C06_sine_multiples_of_pi_partial (TrigProps.v)
* C81_solution_partial (VSolProps.v)
* C81_lower_limit_refuted (VSolProps.v)
* C32_tests_partial (VerifyProps.v)
* C32_bare_n_refuted (VerifyProps.v)
* C31_numeric_partial (VerifyProps.v)
* C31_symbolic_partial (VerifyProps.v)
* C31_wrong_solution_refuted (VerifyProps.v)
* C31_single_condition_refuted (VerifyProps.v)
* C26_collect_term (WClassProps.v)
* C26_linear (WClassProps.v)
* C26_below_partial (WClassProps.v)
* C26_at_partial (WClassProps.v)
* C26_one_partial (WClassProps.v)
* C26_shift (WClassProps.v)
* C26_first_order (WClassProps.v)
* C26_factor_k_refuted (WClassProps.v)
* C26_second_sum_refuted (WClassProps.v)
* C83_below_partial (WSolProps.v)
* C83_at_partial (WSolProps.v)
* C83_minus_one_partial (WSolProps.v)
* C83_index_one_refuted (WSolProps.v)
* C83_weight_minus_one_refuted (WSolProps.v)
* C83_first_index_refuted (WSolProps.v)
* C102_shift_partial (XargProps.v)
* C102_shift_refuted (XargProps.v)
* C102_change_of_variable (XargProps.v)
* C102_outside_is_kept (XargProps.v)
* C102_change_everywhere_refuted (XargProps.v)

## `ClassicalDedekindReals.sig_forall_dec`, `ClassicalDedekindReals.sig_not_dec`, `Classical_Prop.classic`, `functional_extensionality_dep`

* C71_closed_form (GenBndProps.v)
* C71_upper_partial (GenBndProps.v)
* C71_lower_partial (GenBndProps.v)
* C71_power_lower (GenBndProps.v)
* C71_exponential_forgotten_refuted (GenBndProps.v)
* C71_small_coefficient_refuted (GenBndProps.v)
* C71_condition_refuted (GenBndProps.v)
* C70_rewriting_partial (OrdRwProps.v)
* C70_inhomogeneous_partial (OrdRwProps.v)
* C70_come_back (OrdRwProps.v)
* C70_solution_partial (OrdRwProps.v)
* C70_denominator_refuted (OrdRwProps.v)
* C70_argument_refuted (OrdRwProps.v)
