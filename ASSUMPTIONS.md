# What `Print Assumptions` lists for each theorem

Generated by tools/assumptions.py from the built development.

## No axioms (closed under the global context) (417 theorems)

C01_parse_unsigned, C01_parse_signed, C01_print, C01_print_then_parse, C01_parse_then_print, C01_parse_then_print_neg, C01_parse_rejects, C01_leading_blank_sign_refuted, C02_add_exact, C02_C05_history_sound, C02_C05_history_returns, C03_sub_characterised, C03_sub_exact, C03_sub_opposite_refuted, C04_add_canonical, C04_int_canonical, C04_canonical_unique, C04_sub_not_canonical_refuted, C04_div_not_canonical_refuted, C05_mul_exact, C05_mul_outcome, C05_mul_returns, C05_mul_zero_half_refuted, C06_divrem_euclid, C06_divrem_exact_ub, C07_div_truncates, C07_mod_sign_of_dividend, C07_exact_long_division_ub, C08_division_by_zero_throws, C08_never_throws_otherwise, C08_noncanonical_zero_refuted, C09_comparisons, C10_gcd, C10_gcd_long_ub, C11_signed_round_trip, C11_unsigned_round_trip, C11_to_in_range, C11_negative_to_unsigned_throws, C11_too_big_throws, C11_modular, C11_truncation_refuted, C11_minimum_refuted, C12_divrem, C12_negative_dividend_refuted, C13_mulmod_exact, C13_wide_modulus_refuted, C13_wide_modulus_ub_refuted, C14_modpow_exact, C14_modpow_sound, C14_modpow_outcome, C14_overflow_refuted, C14_modulus_one_refuted, C15_numeral, C15_positive, C15_negative, C15_negative_nul_refuted, C15_zero_refuted, C15_minimum_refuted, C15_unsigned, C15_unsigned_big_ub, C16_digits, C16_too_big_ub, C16_unsigned, C16_round_trip, C16_minus_refuted, C17_prime_never_rejected, C17_prime_never_rejected_prob, C17_prime_accepted, C17_prime_accepted_prob, C17_int_overflow_refuted, C18_exact_below_9006403, C18_exact_below_9006403_prob, C18_returns, C18_9006401_refuted, C19_first_base_decides, C19_weaker_than_the_strong_tests, C19_bases_are_the_first_primes, C19_base_2_decides, C19_composite_accepted_refuted, C20_product, C20_sorted, C20_prime_factorization, C20_no_error, C20_non_positive_refuted, C20_composite_element_refuted, C21_divisor, C21_no_error, C22_make, C22_default, C22_add, C22_sub, C22_mul, C22_div, C22_negate, C22_inverse, C22_histories, C23_lowest_terms, C23_add_reduces, C23_mul_keeps, C23_positive, C23_negative_denominator_refuted, C23_text_refuted, C24_order, C24_order_both_negative, C24_equality, C24_inequality, C24_opposite_signs, C24_lt, C24_le, C24_negative_denominator_refuted, C25_outcome, C25_no_overflow, C25_overflow_refuted, C26_pow, C26_pow_assumptions_consistent, C26_negative_refuted, C27_make, C27_text, C27_inverse, C27_div, C27_reachable, C28_undefined_read_harmless, C28_bad_arguments_refuted, C28_index_zero_never_returns, C29_standard_environment, C30_zero_divisor, C30_negative_denominator_refuted, C31_zero_plus_root_refuted, C32_negative_denominator_refuted, C34_unmerged_zero_refuted, C35_up_to_twenty, C35_negative_exponent, C35_twenty_one_refuted, C35_line_refuted, C36_solutions, C36_total, C36_one_variable_never_returns, C40_grammar, C40_unambiguous, C40_text, C41_structure, C41_all_used, C41_total, C41_tokens_proper, C41_rejection_refuted, C41_open_paren_refuted, C42_parse_iff, C42_tokens_iff, C42_unique, C42_token, C42_token_complete, C42_terminates, C42_characters, C42_tokens, C42_insertion, C42_root_separator_refuted, C43_standard_machine, C43_odd_name_refuted, C44_exponent_refuted, C45_product_refuted, C46_interval, C46_nearest, C46_text, C46_negative, C46_sign_of_not_finite, C46_not_finite_refuted, C46_injective, C46_shortest_refuted, C46_infinity_refuted, C47_layout, C47_integers, C47_exponent, C47_integer_refuted, C47_exponent_refuted, C48_table, C48_outside, C48_choice, C48_product, C49_line, C49_commands, C49_quit_only, C49_version, C49_first_line, C49_normalize_tex, C49_one_action_refuted, C49_call, C49_call_rest_refuted, C49_expression, C49_normalize_prints, C49_tex_prints, C49_factor_prints, C49_empty_name_refuted, C50_start, C50_invariant, C50_error_changes_nothing, C50_escape, C50_session, C50_escape_refuted, C50_redefinition_refuted, C51_refines, C51_memory, C51_no_leak, C51_all_freed, C51_in_place, C51_independent, C51_parse_leaks, C51_assign_shares, C51_assign_leaks, C51_redefinition, C51_assign_refuted, C51_parse_leak_refuted, C53_round_trip, C53_stoll, C53_int_narrowing_refuted, C54_gcd, C54_lcm, C54_gcd_returns, C54_lcm_returns, C54_minimum_refuted, C55_round_trip, C55_injective, C55_tex_form, C55_minus_one_denominator_refuted, C56_tex_index_refuted, C57_irrational_refuted, C59_environment, C59_rational, C59_rational_text, C59_real, C59_poly, C59_frac, C59_parse, C59_expr, C59_denominator_refuted, C60_printing, C60_read_print, C61_some, C61_none, C61_operator, C62_func_needs_parentheses, C62_func_empty_parameter, C62_func_needs_equals, C62_constant_refused, C62_factor_refused, C62_start, C62_constants, C62_functions, C62_one_definition, C62_print, C63_wrong_arity, C63_empty_argument, C63_arguments, C63_prints, C63_arity, C64_end_of_input, C64_unterminated, C64_unterminated_refuted, C58_sign_refuted, C65_rounding, C65_literal, C65_exact, C65_long_literal, C65_formats, C65_out_of_range, C65_wrong_value_refuted, C65_other_texts_refuted, C66_round_ends, C66_lucky_draw_hits, C66_lucky_draws_exist, C66_uniform_is_fair, C66_ends, C66_ends_with_the_primes, C66_no_dead_end, C66_unfair_source_refuted, C67_huge, C67_huge_too_big, C67_huge_between, C67_huge_refuted, C67_pow_refuted, C67_pow_zero, C67_rational_nearest, C67_rational_int, C67_rational_int_least, C67_rational_int_refuted, C67_real_rational, C69_total, C69_fraction_symbols, C69_fraction_refused, C72_one_reading, C73_simplify, C73_substitute, C73_operations, C73_unary, C73_parse, C73_written, C73_maps, C73_maps_kept, C73_pipeline, C74_negate, C74_abs, C74_increment, C74_count_up, C74_decrement, C74_count_down_stuck, C74_count_down_negative, C74_count_down_refuted, C75_exact_where_it_fits, C75_order, C75_integer_power, C75_odd_power_refuted, C76_order, C76_factorisation_ready, C76_overflow_refuted, C77_assert, C77_unreachable, C77_equality, C77_content_determines, C77_place_determines, C77_place_refuted, C77_nameof, C77_nameof_plain, C77_nameof_no_open, C77_nameof_gcc_refuted, C79_huge, C79_huge_copy, C79_huge_postfix, C79_rational, C79_rational_copy, C79_real, C79_real_copy, C79_term, C79_term_copy, C79_term_divide, C79_poly, C79_poly_other, C79_poly_copy, C79_frac, C79_frac_other, C79_frac_copy, C79_poly_plus_itself, C79_frac_plus_itself, C79_frac_divide_itself_refuted, C79_poly_divide_own_refuted, C80_huge, C80_rational, C80_real, C80_term, C80_poly, C80_frac_zero, C80_frac_usable, C80_frac_refuted, C81_insertion, C81_cycle_refuted, C81_cycle_typed, C81_symmetric_refuted, C81_symmetric_made, C82_tokens, C82_func, C82_constant, C82_arguments, C82_line, C82_call, C82_huge, C82_inside, C82_ascii, C82_accepted, C82_first_byte, C82_radical_refuted, C82_huge_refuted, C83_merge, C83_erase, C83_substitute, C83_multiply, C83_factors, C83_digits, C83_inside, C83_inside_dtoa, C83_empty_refuted, C84_weak_refuted, C84_constants_last, C85_pow, C85_digits_pow, C85_power_refuted, C86_parse, C86_normalize, C86_substitute, C86_print, C86_history, C86_parse_exact, C86_normalize_exact, C86_history_exact, C86_sorts, C86_power_refuted, C87_session, C87_line, C87_start, C87_exact, C87_power_refuted, C88_start, C88_overflow_refuted, C89_radicand, C89_odd, C89_no_root, C89_odd_refuted, C89_undefined_read_refuted, C89_line_refuted, C90_ignored, C90_value, C90_integer, C90_out_of_range, C90_hexadecimal, C90_hexadecimal_large, C90_agrees, C90_invalid, C90_not_finite_refuted, C90_slash_refuted, C90_texts_refuted

## `ClassicalDedekindReals.sig_forall_dec` (1 theorems)

C33_positive_assignments

## `ClassicalDedekindReals.sig_forall_dec`, `FunctionalExtensionality.functional_extensionality_dep` (1 theorems)

C67_rational_error

## `ClassicalDedekindReals.sig_forall_dec`, `ClassicalDedekindReals.sig_not_dec`, `Classical_Prop.classic`, `FunctionalExtensionality.functional_extensionality_dep` (142 theorems)

C28_normalize_preserves, C28_nth_root, C29_canonical, C29_unique, C29_eq_decides, C29_ne_decides, C29_inverse_refuted, C30_mul, C30_div, C30_inverse, C30_pow_integer, C30_pow_fraction, C30_histories, C31_add_exact, C31_sub_exact, C31_throws_only, C31_throws_always, C32_lt, C32_gt, C32_lt_values, C33_add, C33_sub, C33_mul, C33_negate, C33_assignments, C34_standard_machine, C34_normalize_value, C34_like_terms, C34_rational_distinct, C35_pow, C35_unexpanded, C35_every_exponent, C35_exactly, C35_sixty_six_refuted, C37_term, C37_poly, C37_frac, C38_histories, C38_histories_wf, C38_eval, C38_minus_assign, C38_division_by_zero_throws, C38_zero_check, C39_normalize, C39_remainder_by_zero_refuted, C43_round_trip, C43_leaves, C44_try_eval, C44_normalize, C44_substitute, C44_integer_power, C45_power_refuted, C45_faithful_when_leaves_are, C49_value, C52_product, C52_exponents, C52_power, C52_integer_power, C52_rational_power, C52_power_exponents, C52_negate, C56_text_injective, C57_eval, C57_try_eval, C61_exact, C63_value, C58_polynomial, C58_fraction, C58_tree, C58_simplified, C58_denominator_refuted, C58_exponent_refuted, C65_parse, C67_real_error, C67_real_45_bits, C68_accuracy, C68_within, C68_cancellation_refuted, C69_decides, C69_value, C69_outcome, C69_fraction, C69_fraction_decides, C69_fraction_rational_refuted, C70_expanded, C70_prints, C70_reads_back, C70_canonical, C70_tex, C70_zero, C70_difference, C70_total, C70_decides, C71_quotient, C71_domain, C71_common_domain, C71_zero, C71_difference, C72_rational, C72_number, C72_polynomial, C72_fraction, C72_empty, C72_tree, C72_simplified, C72_equal_texts, C73_all_bound, C73_no_letters, C73_value, C75_value, C75_root_refuted, C75_order_refuted, C76_make, C76_add, C76_mul, C76_div, C76_pow, C76_pow_negative, C76_roots, C78_fixed_point, C78_session, C79_frac_divide_itself, C79_poly_divide_own, C80_frac, C81_strict_weak, C81_order, C81_ties, C81_std_sort, C84_less, C84_partial_order, C84_degrees_ignored, C86_normalize_value, C86_substitute_value, C86_history_value, C86_history_exact_value, C86_decides, C86_fixed_point, C88_fib, C88_line, C88_doubles, C89_even, C89_even_abs
