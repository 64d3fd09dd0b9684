{
 "claims": [
  {
   "property": "C01",
   "status": "proved",
   "theorems": [
    "C01_parse_unsigned",
    "C01_parse_signed",
    "C01_print",
    "C01_print_then_parse",
    "C01_parse_then_print",
    "C01_parse_then_print_neg",
    "C01_parse_rejects",
    "C01_leading_blank_sign_refuted"
   ],
   "note": "All lengths and values; canonical numerals; the sign-after-blank defect is a refuted theorem. Printing of the zero with negative sign flag gives \"-0\"."
  },
  {
   "property": "C02",
   "status": "proved",
   "theorems": [
    "C02_add_exact",
    "C02_C05_history_sound",
    "C02_C05_history_returns"
   ],
   "note": "Also as part of arbitrary +,* histories."
  },
  {
   "property": "C03",
   "status": "proved",
   "theorems": [
    "C03_sub_characterised",
    "C03_sub_exact",
    "C03_sub_opposite_refuted"
   ],
   "note": "Exact characterisation incl. the defect x-(-x)=0."
  },
  {
   "property": "C04",
   "status": "proved",
   "theorems": [
    "C04_add_canonical",
    "C04_int_canonical",
    "C04_canonical_unique",
    "C04_sub_not_canonical_refuted",
    "C04_div_not_canonical_refuted"
   ],
   "note": "Positive cases proved, non-canonical results of - and / refuted with witnesses and their visible consequences."
  },
  {
   "property": "C05",
   "status": "proved",
   "theorems": [
    "C05_mul_exact",
    "C05_mul_outcome",
    "C05_mul_returns",
    "C05_mul_zero_half_refuted",
    "C02_C05_history_sound",
    "C02_C05_history_returns"
   ],
   "note": "Schoolbook and Karatsuba; UB witness for zero halves."
  },
  {
   "property": "C06",
   "status": "proved",
   "theorems": [
    "C06_divrem_euclid",
    "C06_divrem_exact_ub"
   ],
   "note": "Knuth D incl. qhat bound, add-back; exact long division is UB for every such pair."
  },
  {
   "property": "C07",
   "status": "proved",
   "theorems": [
    "C07_div_truncates",
    "C07_mod_sign_of_dividend",
    "C07_exact_long_division_ub"
   ],
   "note": ""
  },
  {
   "property": "C08",
   "status": "proved",
   "theorems": [
    "C08_division_by_zero_throws",
    "C08_never_throws_otherwise",
    "C08_noncanonical_zero_refuted"
   ],
   "note": "Both directions on canonical operands; non-canonical zero witness refutes the unrestricted claim."
  },
  {
   "property": "C09",
   "status": "proved",
   "theorems": [
    "C09_comparisons"
   ],
   "note": ""
  },
  {
   "property": "C10",
   "status": "proved",
   "theorems": [
    "C10_gcd",
    "C10_gcd_long_ub"
   ],
   "note": "Complete characterisation: returns the gcd or is UB."
  },
  {
   "property": "C11",
   "status": "proved",
   "theorems": [
    "C11_signed_round_trip",
    "C11_unsigned_round_trip",
    "C11_to_in_range",
    "C11_negative_to_unsigned_throws",
    "C11_too_big_throws",
    "C11_modular",
    "C11_truncation_refuted",
    "C11_minimum_refuted"
   ],
   "note": ""
  },
  {
   "property": "C12",
   "status": "proved",
   "theorems": [
    "C12_divrem",
    "C12_negative_dividend_refuted"
   ],
   "note": ""
  },
  {
   "property": "C13",
   "status": "proved",
   "theorems": [
    "C13_mulmod_exact",
    "C13_wide_modulus_refuted",
    "C13_wide_modulus_ub_refuted"
   ],
   "note": ""
  },
  {
   "property": "C14",
   "status": "proved",
   "theorems": [
    "C14_modpow_exact",
    "C14_modpow_sound",
    "C14_modpow_outcome",
    "C14_overflow_refuted",
    "C14_modulus_one_refuted"
   ],
   "note": ""
  },
  {
   "property": "C15",
   "status": "proved",
   "theorems": [
    "C15_numeral",
    "C15_positive",
    "C15_negative",
    "C15_negative_nul_refuted",
    "C15_zero_refuted",
    "C15_minimum_refuted",
    "C15_unsigned",
    "C15_unsigned_big_ub"
   ],
   "note": "size estimate: exact rational quotient instead of the double one (argued equal in the model comment)"
  },
  {
   "property": "C16",
   "status": "proved",
   "theorems": [
    "C16_digits",
    "C16_too_big_ub",
    "C16_unsigned",
    "C16_round_trip",
    "C16_minus_refuted"
   ],
   "note": ""
  },
  {
   "property": "C17",
   "status": "proved",
   "theorems": [
    "C17_prime_never_rejected",
    "C17_prime_never_rejected_prob",
    "C17_prime_accepted",
    "C17_prime_accepted_prob",
    "C17_int_overflow_refuted"
   ],
   "note": "All widths; both the deterministic and the randomised test."
  },
  {
   "property": "C18",
   "status": "proved",
   "theorems": [
    "C18_exact_below_9006403",
    "C18_exact_below_9006403_prob",
    "C18_returns",
    "C18_9006401_refuted"
   ],
   "note": "Complete sweep over the smallest prime factor with the order of 2, computed in the kernel (vm_compute)."
  },
  {
   "property": "C19",
   "status": "proved",
   "theorems": [
    "C19_first_base_decides",
    "C19_weaker_than_the_strong_tests",
    "C19_bases_are_the_first_primes",
    "C19_base_2_decides",
    "C19_composite_accepted_refuted"
   ],
   "note": ""
  },
  {
   "property": "C20",
   "status": "proved",
   "theorems": [
    "C20_product",
    "C20_sorted",
    "C20_prime_factorization",
    "C20_no_error",
    "C20_non_positive_refuted",
    "C20_composite_element_refuted"
   ],
   "note": "Termination is C66; std::sqrt of n < 100000 modelled as the integer square root."
  },
  {
   "property": "C21",
   "status": "proved",
   "theorems": [
    "C21_divisor",
    "C21_no_error"
   ],
   "note": ""
  },
  {
   "property": "C22",
   "status": "proved",
   "theorems": [
    "C22_make",
    "C22_default",
    "C22_add",
    "C22_sub",
    "C22_mul",
    "C22_div",
    "C22_negate",
    "C22_inverse",
    "C22_histories"
   ],
   "note": "Histories by induction over arbitrary operation sequences."
  },
  {
   "property": "C23",
   "status": "proved",
   "theorems": [
    "C23_lowest_terms",
    "C23_add_reduces",
    "C23_mul_keeps",
    "C23_positive",
    "C23_negative_denominator_refuted",
    "C23_text_refuted"
   ],
   "note": "Negative denominators and unreduced texts are refuted witnesses."
  },
  {
   "property": "C24",
   "status": "proved",
   "theorems": [
    "C24_order",
    "C24_order_both_negative",
    "C24_equality",
    "C24_inequality",
    "C24_opposite_signs",
    "C24_lt",
    "C24_le",
    "C24_negative_denominator_refuted"
   ],
   "note": "Complete: exact on same-sign denominators, reversed on opposite signs."
  },
  {
   "property": "C25",
   "status": "proved",
   "theorems": [
    "C25_outcome",
    "C25_no_overflow",
    "C25_overflow_refuted"
   ],
   "note": ""
  },
  {
   "property": "C26",
   "status": "proved",
   "theorems": [
    "C26_pow",
    "C26_pow_assumptions_consistent",
    "C26_negative_refuted"
   ],
   "note": "Relative to stated assumptions on std::pow (consistent: witness ideal_pow)."
  },
  {
   "property": "C27",
   "status": "proved",
   "theorems": [
    "C27_make",
    "C27_text",
    "C27_inverse",
    "C27_div",
    "C27_reachable"
   ],
   "note": "pow can produce a zero denominator (C26)."
  },
  {
   "property": "C28",
   "status": "proved",
   "theorems": [
    "C28_normalize_preserves",
    "C28_nth_root",
    "C28_undefined_read_harmless",
    "C28_bad_arguments_refuted",
    "C28_index_zero_never_returns"
   ],
   "note": "For every factorisation result factorize can give; the undefined read is shown harmless; index 0 and radicand <= 0 are separate theorems."
  },
  {
   "property": "C29",
   "status": "proved",
   "theorems": [
    "C29_canonical",
    "C29_unique",
    "C29_standard_environment",
    "C29_eq_decides",
    "C29_ne_decides",
    "C29_inverse_refuted"
   ],
   "note": "Normal form, uniqueness, and == decides equality for any two histories; inverse()/pow(-n) results are not normal (refuted). Factorisation into primes is assumed (fac_exact) and proved for the standard environment below 9006401."
  },
  {
   "property": "C30",
   "status": "proved",
   "theorems": [
    "C30_mul",
    "C30_div",
    "C30_inverse",
    "C30_pow_integer",
    "C30_pow_fraction",
    "C30_histories",
    "C30_zero_divisor",
    "C30_negative_denominator_refuted"
   ],
   "note": "Single operations and arbitrary histories; floating std::pow is modelled where exact (integers up to 2^53)."
  },
  {
   "property": "C31",
   "status": "proved",
   "theorems": [
    "C31_add_exact",
    "C31_sub_exact",
    "C31_throws_only",
    "C31_throws_always",
    "C31_zero_plus_root_refuted"
   ],
   "note": "Exact when it returns; throws exactly when the radical parts differ; 0+sqrt(2) refuted."
  },
  {
   "property": "C32",
   "status": "proved",
   "theorems": [
    "C32_lt",
    "C32_gt",
    "C32_lt_values",
    "C32_negative_denominator_refuted"
   ],
   "note": "<, > for histories with positive denominators; negative denominators refuted."
  },
  {
   "property": "C33",
   "status": "proved",
   "theorems": [
    "C33_add",
    "C33_sub",
    "C33_mul",
    "C33_negate",
    "C33_assignments",
    "C33_positive_assignments"
   ],
   "note": "Values over Coq reals; a Poly result whose computation overflows stops (Ub) in the model and is outside the claim."
  },
  {
   "property": "C34",
   "status": "proved",
   "theorems": [
    "C34_standard_machine",
    "C34_normalize_value",
    "C34_like_terms",
    "C34_rational_distinct",
    "C34_unmerged_zero_refuted"
   ],
   "note": "Value preservation for every permutation the sort may leave; like terms merged with a sorted output; general distinctness refuted."
  },
  {
   "property": "C35",
   "status": "proved",
   "theorems": [
    "C35_pow",
    "C35_up_to_twenty",
    "C35_negative_exponent",
    "C35_twenty_one_refuted",
    "C35_unexpanded",
    "C35_every_exponent",
    "C35_exactly",
    "C35_sixty_six_refuted",
    "C35_line_refuted"
   ],
   "note": "n! representable => exact; 64 bit: n<=20. n=21 refuted by computation. Every exponent: the result is f/n! times the power, f = n! wrapped to T (C35_every_exponent), so exact iff n! is representable or the value is 0 (C35_exactly); 0 from n = 66 on."
  },
  {
   "property": "C36",
   "status": "proved",
   "theorems": [
    "C36_solutions",
    "C36_total",
    "C36_one_variable_never_returns"
   ],
   "note": "Exact enumeration, no duplicates, m>=2; m=1 never returns."
  },
  {
   "property": "C37",
   "status": "proved",
   "theorems": [
    "C37_term",
    "C37_poly",
    "C37_frac"
   ],
   "note": "Term, Poly and Frac substitution."
  },
  {
   "property": "C38",
   "status": "proved",
   "theorems": [
    "C38_histories",
    "C38_histories_wf",
    "C38_eval",
    "C38_minus_assign",
    "C38_division_by_zero_throws",
    "C38_zero_check"
   ],
   "note": "All histories of + - * / on fractions, at every assignment with nonzero denominators."
  },
  {
   "property": "C39",
   "status": "proved",
   "theorems": [
    "C39_normalize",
    "C39_remainder_by_zero_refuted"
   ],
   "note": "normalize preserves value; g % 0 reachable (refuted witness)."
  },
  {
   "property": "C40",
   "status": "proved",
   "theorems": [
    "C40_grammar",
    "C40_unambiguous",
    "C40_text"
   ],
   "note": "For every derivation of the grammar (ParserSpec.derives), by induction; tokens and text."
  },
  {
   "property": "C41",
   "status": "proved",
   "theorems": [
    "C41_structure",
    "C41_all_used",
    "C41_total",
    "C41_tokens_proper",
    "C41_rejection_refuted",
    "C41_open_paren_refuted"
   ],
   "note": "All token lists; acceptance of malformed texts refuted by witnesses."
  },
  {
   "property": "C42",
   "status": "proved",
   "theorems": [
    "C42_parse_iff",
    "C42_tokens_iff",
    "C42_unique",
    "C42_token",
    "C42_token_complete",
    "C42_terminates",
    "C42_characters",
    "C42_tokens",
    "C42_insertion",
    "C42_root_separator_refuted"
   ],
   "note": "All texts; decimal literals through the abstract function dec."
  },
  {
   "property": "C43",
   "status": "proved",
   "theorems": [
    "C43_round_trip",
    "C43_standard_machine",
    "C43_leaves",
    "C43_odd_name_refuted"
   ],
   "note": "All trees of any depth over integers and symbols; odd one-character names refuted."
  },
  {
   "property": "C44",
   "status": "proved",
   "theorems": [
    "C44_try_eval",
    "C44_normalize",
    "C44_substitute",
    "C44_integer_power",
    "C44_exponent_refuted"
   ],
   "note": "All trees, all assignments with the definedness conditions of ExprSpec.edefined; exponent with denominator -1 refuted."
  },
  {
   "property": "C45",
   "status": "proved",
   "theorems": [
    "C45_power_refuted",
    "C45_product_refuted",
    "C45_faithful_when_leaves_are"
   ],
   "note": "Witness with real values, and the positive theorem under leaves_read."
  },
  {
   "property": "C46",
   "status": "proved",
   "theorems": [
    "C46_interval",
    "C46_nearest",
    "C46_text",
    "C46_negative",
    "C46_sign_of_not_finite",
    "C46_not_finite_refuted",
    "C46_injective",
    "C46_shortest_refuted",
    "C46_infinity_refuted"
   ],
   "note": "All finite doubles; refuted witnesses for shortest-ness and for inf/NaN. Bits-to-double reinterpretation is modelled arithmetically."
  },
  {
   "property": "C47",
   "status": "proved",
   "theorems": [
    "C47_layout",
    "C47_integers",
    "C47_exponent",
    "C47_integer_refuted",
    "C47_exponent_refuted"
   ],
   "note": "Exact characterisation incl. the integer-branch defect."
  },
  {
   "property": "C48",
   "status": "proved",
   "theorems": [
    "C48_table",
    "C48_outside",
    "C48_choice",
    "C48_product"
   ],
   "note": "Table copied verbatim; every entry checked by kernel computation, lifted to a universally quantified statement."
  },
  {
   "property": "C49",
   "status": "proved",
   "theorems": [
    "C49_line",
    "C49_commands",
    "C49_quit_only",
    "C49_version",
    "C49_first_line",
    "C49_normalize_tex",
    "C49_one_action_refuted",
    "C49_call",
    "C49_call_rest_refuted",
    "C49_expression",
    "C49_normalize_prints",
    "C49_value",
    "C49_tex_prints",
    "C49_factor_prints",
    "C49_empty_name_refuted"
   ],
   "note": "Exact case split over all lines; defects (double evaluation, ignored rest of a call, empty name) as refuted witnesses. std::cout, std::getline and long double are abstract."
  },
  {
   "property": "C50",
   "status": "proved",
   "theorems": [
    "C50_start",
    "C50_invariant",
    "C50_error_changes_nothing",
    "C50_escape",
    "C50_session",
    "C50_escape_refuted",
    "C50_redefinition_refuted"
   ],
   "note": "Invariant over all sessions; escaping exceptions characterised exactly; redefinition UB taken from C51_redefinition."
  },
  {
   "property": "C51",
   "status": "proved",
   "theorems": [
    "C51_refines",
    "C51_memory",
    "C51_no_leak",
    "C51_all_freed",
    "C51_in_place",
    "C51_independent",
    "C51_parse_leaks",
    "C51_assign_shares",
    "C51_assign_leaks",
    "C51_redefinition",
    "C51_assign_refuted",
    "C51_parse_leak_refuted"
   ],
   "note": "Heap model with refinement to value semantics for every program without operator-to-operator assignment; that assignment is shown undefined from every reachable state; parser leaks counted exactly. C51_redefinition covers the map assignment in the command line."
  },
  {
   "property": "C52",
   "status": "proved",
   "theorems": [
    "C52_product",
    "C52_exponents",
    "C52_power",
    "C52_integer_power",
    "C52_rational_power",
    "C52_power_exponents",
    "C52_negate"
   ],
   "note": "Term product, power, negate: value and exponents."
  },
  {
   "property": "C53",
   "status": "proved",
   "theorems": [
    "C53_round_trip",
    "C53_stoll",
    "C53_int_narrowing_refuted"
   ],
   "note": ""
  },
  {
   "property": "C54",
   "status": "proved",
   "theorems": [
    "C54_gcd",
    "C54_lcm",
    "C54_gcd_returns",
    "C54_lcm_returns",
    "C54_minimum_refuted"
   ],
   "note": "std::gcd/std::lcm are taken as the mathematical functions with overflow as UB."
  },
  {
   "property": "C55",
   "status": "proved",
   "theorems": [
    "C55_round_trip",
    "C55_injective",
    "C55_tex_form",
    "C55_minus_one_denominator_refuted"
   ],
   "note": ""
  },
  {
   "property": "C56",
   "status": "proved",
   "theorems": [
    "C56_text_injective",
    "C56_tex_index_refuted"
   ],
   "note": "to_string injective on normal forms; LaTeX index defect refuted."
  },
  {
   "property": "C57",
   "status": "proved",
   "theorems": [
    "C57_eval",
    "C57_try_eval",
    "C57_irrational_refuted"
   ],
   "note": "eval/try_eval exact; constant irrational polynomial refuted."
  },
  {
   "property": "C59",
   "status": "proved",
   "theorems": [
    "C59_environment",
    "C59_rational",
    "C59_rational_text",
    "C59_real",
    "C59_poly",
    "C59_frac",
    "C59_parse",
    "C59_expr",
    "C59_denominator_refuted"
   ],
   "note": "For T a machine integer; bad_alloc not modelled."
  },
  {
   "property": "C60",
   "status": "proved",
   "theorems": [
    "C60_printing",
    "C60_read_print"
   ],
   "note": ""
  },
  {
   "property": "C61",
   "status": "proved",
   "theorems": [
    "C61_some",
    "C61_none",
    "C61_exact",
    "C61_operator"
   ],
   "note": "Exactness theorem instantiates the floating-point type with the real numbers; leaf powers of nonpositive numbers only with integer exponents."
  },
  {
   "property": "C62",
   "status": "proved",
   "theorems": [
    "C62_func_needs_parentheses",
    "C62_func_empty_parameter",
    "C62_func_needs_equals",
    "C62_constant_refused",
    "C62_factor_refused",
    "C62_start",
    "C62_constants",
    "C62_functions",
    "C62_one_definition",
    "C62_print"
   ],
   "note": ""
  },
  {
   "property": "C63",
   "status": "proved",
   "theorems": [
    "C63_wrong_arity",
    "C63_empty_argument",
    "C63_arguments",
    "C63_prints",
    "C63_value",
    "C63_arity"
   ],
   "note": "Value theorem under the same definedness conditions as C38/C41."
  },
  {
   "property": "C64",
   "status": "proved",
   "theorems": [
    "C64_end_of_input",
    "C64_unterminated",
    "C64_unterminated_refuted"
   ],
   "note": "std::getline modelled as: lines, then empty (or the unterminated last line for ever)."
  },
  {
   "property": "C58",
   "status": "proved",
   "theorems": [
    "C58_polynomial",
    "C58_fraction",
    "C58_tree",
    "C58_simplified",
    "C58_denominator_refuted",
    "C58_exponent_refuted",
    "C58_sign_refuted"
   ],
   "note": "Poly, Frac and tree texts under the stated shape conditions, the simplify-print-read chain, and refuted theorems with values for the shapes that do not read back."
  },
  {
   "property": "C65",
   "status": "proved",
   "theorems": [
    "C65_rounding",
    "C65_literal",
    "C65_exact",
    "C65_long_literal",
    "C65_parse",
    "C65_formats",
    "C65_out_of_range",
    "C65_wrong_value_refuted",
    "C65_other_texts_refuted"
   ],
   "note": "Any binary format with good_format; std::stold is taken as correctly rounded; literals with an exponent, hexadecimal, inf and nan are not modelled. The loss of the last unit is a refuted theorem with witnesses."
  },
  {
   "property": "C66",
   "status": "proved",
   "theorems": [
    "C66_round_ends",
    "C66_lucky_draw_hits",
    "C66_lucky_draws_exist",
    "C66_uniform_is_fair",
    "C66_ends",
    "C66_ends_with_the_primes",
    "C66_no_dead_end",
    "C66_unfair_source_refuted"
   ],
   "note": "Fair source: draws of the listed kind recur (implied by all values recurring). The measure-theoretic step from uniform draws to fairness is not formalised; the code seeds a fresh mt19937 with one 32-bit number per draw, so a large range need not be covered completely, which is why fairness asks for lucky draws only."
  },
  {
   "property": "C67",
   "status": "proved",
   "theorems": [
    "C67_huge",
    "C67_huge_too_big",
    "C67_huge_between",
    "C67_huge_refuted",
    "C67_pow_refuted",
    "C67_pow_zero",
    "C67_rational_nearest",
    "C67_rational_error",
    "C67_rational_int",
    "C67_rational_int_least",
    "C67_rational_int_refuted",
    "C67_real_rational",
    "C67_real_error",
    "C67_real_45_bits"
   ],
   "note": "Floating-point numbers are exact values with rounding to nearest, ties to even, unbounded exponents; std::pow is a parameter with its accuracy as a hypothesis, shown satisfiable."
  },
  {
   "property": "C68",
   "status": "proved",
   "theorems": [
    "C68_accuracy",
    "C68_within",
    "C68_cancellation_refuted"
   ],
   "note": "As C67; the class of expressions is the inductive `steps`. The loss under subtraction is a refuted theorem with a witness."
  },
  {
   "property": "C69",
   "status": "proved",
   "theorems": [
    "C69_decides",
    "C69_total",
    "C69_value",
    "C69_outcome",
    "C69_fraction",
    "C69_fraction_symbols",
    "C69_fraction_decides",
    "C69_fraction_refused",
    "C69_fraction_rational_refuted"
   ],
   "note": "Over histories of Real operations with the modelled factorize (fac_sound, fac_exact as in C29-C31)."
  },
  {
   "property": "C70",
   "status": "proved",
   "theorems": [
    "C70_expanded",
    "C70_prints",
    "C70_reads_back",
    "C70_canonical",
    "C70_tex",
    "C70_zero",
    "C70_difference",
    "C70_total",
    "C70_decides"
   ],
   "note": "Both directions: soundness through reading the text back, completeness through the linear independence of monomials on positive assignments; quotients refuted with texts."
  },
  {
   "property": "C71",
   "status": "proved",
   "theorems": [
    "C71_quotient",
    "C71_domain",
    "C71_common_domain",
    "C71_zero",
    "C71_difference"
   ],
   "note": "Exact zero test in both directions; the domain claim rests on exponential sums having finitely many zeros along a path (RatfunProofs1). The two defects are witnesses."
  },
  {
   "property": "C72",
   "status": "proved",
   "theorems": [
    "C72_one_reading",
    "C72_rational",
    "C72_number",
    "C72_polynomial",
    "C72_fraction",
    "C72_empty",
    "C72_tree",
    "C72_simplified",
    "C72_equal_texts"
   ],
   "note": "Both the positive classes and the printing defects outside them are theorems (the defects as witnesses). The reader of TeX formulas is TexSpec.read_tex, a function written from the notation."
  },
  {
   "property": "C73",
   "status": "proved",
   "theorems": [
    "C73_simplify",
    "C73_substitute",
    "C73_all_bound",
    "C73_operations",
    "C73_unary",
    "C73_parse",
    "C73_written",
    "C73_no_letters",
    "C73_maps",
    "C73_maps_kept",
    "C73_value",
    "C73_pipeline"
   ],
   "note": "Exact for parsing (iff), one direction for the operations; the converse is refuted by x^0."
  },
  {
   "property": "C74",
   "status": "proved",
   "theorems": [
    "C74_negate",
    "C74_abs",
    "C74_increment",
    "C74_count_up",
    "C74_decrement",
    "C74_count_down_stuck",
    "C74_count_down_negative",
    "C74_count_down_refuted"
   ],
   "note": "Exact for ++; -- characterised incl. the two defects (at -1, and the leading zero digit)."
  },
  {
   "property": "C75",
   "status": "proved",
   "theorems": [
    "C75_exact_where_it_fits",
    "C75_value",
    "C75_order",
    "C75_integer_power",
    "C75_odd_power_refuted",
    "C75_root_refuted",
    "C75_order_refuted"
   ],
   "note": "Simulation plus exact characterisation of integer powers; roots and comparisons beyond 53 bits by witnesses."
  },
  {
   "property": "C76",
   "status": "proved",
   "theorems": [
    "C76_make",
    "C76_add",
    "C76_mul",
    "C76_div",
    "C76_pow",
    "C76_pow_negative",
    "C76_order",
    "C76_factorisation_ready",
    "C76_roots",
    "C76_overflow_refuted"
   ],
   "note": "Sufficient bounds, operation by operation; the bounds are not claimed to be necessary, overflow outside them is shown by witnesses."
  },
  {
   "property": "C77",
   "status": "proved",
   "theorems": [
    "C77_assert",
    "C77_unreachable",
    "C77_equality",
    "C77_content_determines",
    "C77_place_determines",
    "C77_place_refuted",
    "C77_nameof",
    "C77_nameof_plain",
    "C77_nameof_no_open",
    "C77_nameof_gcc_refuted"
   ],
   "note": "GCC's spelling of function_name() is an assumption visible in the statement of C77_nameof_gcc_refuted."
  },
  {
   "property": "C78",
   "status": "proved",
   "theorems": [
    "C78_fixed_point",
    "C78_session"
   ],
   "note": "Only the text is a fixed point, not everything the command line prints: terms with coefficient 0 are kept, so the value behind \" = \" may appear for a line and not for its answer."
  },
  {
   "property": "C79",
   "status": "proved",
   "theorems": [
    "C79_huge",
    "C79_huge_copy",
    "C79_huge_postfix",
    "C79_rational",
    "C79_rational_copy",
    "C79_real",
    "C79_real_copy",
    "C79_term",
    "C79_term_copy",
    "C79_term_divide",
    "C79_poly",
    "C79_poly_other",
    "C79_poly_copy",
    "C79_frac",
    "C79_frac_other",
    "C79_frac_copy",
    "C79_poly_plus_itself",
    "C79_frac_plus_itself",
    "C79_frac_divide_itself",
    "C79_poly_divide_own",
    "C79_frac_divide_itself_refuted",
    "C79_poly_divide_own_refuted"
   ],
   "note": "All operators as programs; the alias-unsafe ones (Poly/Frac += itself, Frac /= itself, Poly /= own coefficient) characterised exactly, with _refuted witnesses."
  },
  {
   "property": "C80",
   "status": "proved",
   "theorems": [
    "C80_huge",
    "C80_rational",
    "C80_real",
    "C80_term",
    "C80_poly",
    "C80_frac",
    "C80_frac_zero",
    "C80_frac_usable",
    "C80_frac_refuted"
   ],
   "note": "Strong guarantee for all types but Frac; for Frac old-or-result value plus the usable invariant, and a witness that it changes. Poly /= its own coefficient is covered by C79 only."
  },
  {
   "property": "C81",
   "status": "proved",
   "theorems": [
    "C81_strict_weak",
    "C81_order",
    "C81_ties",
    "C81_std_sort",
    "C81_insertion",
    "C81_cycle_refuted",
    "C81_cycle_typed",
    "C81_symmetric_refuted",
    "C81_symmetric_made"
   ],
   "note": "Where the comparator returns (it may overflow). The root index is bounded by index^2 < 2^w. Witnesses that the precondition fails over negative denominators, one of them typed."
  },
  {
   "property": "C82",
   "status": "proved",
   "theorems": [
    "C82_tokens",
    "C82_func",
    "C82_constant",
    "C82_arguments",
    "C82_line",
    "C82_call",
    "C82_huge",
    "C82_inside",
    "C82_ascii",
    "C82_accepted",
    "C82_first_byte",
    "C82_radical_refuted",
    "C82_huge_refuted"
   ],
   "note": "The readers are modelled a second time, with positions and checked accesses, and proved to refine the models used elsewhere. Witnesses for accepted texts with invalid <cctype> calls."
  },
  {
   "property": "C83",
   "status": "proved",
   "theorems": [
    "C83_merge",
    "C83_erase",
    "C83_substitute",
    "C83_multiply",
    "C83_factors",
    "C83_digits",
    "C83_inside",
    "C83_inside_dtoa",
    "C83_empty_refuted"
   ],
   "note": "The loops are modelled a second time, with iterators as positions, and proved equal to the models used elsewhere; termination is part of the equality (explicit step budget). Iterators are positions because each loop has one iterator into the container it changes and takes the one erase returns."
  },
  {
   "property": "C84",
   "status": "proved",
   "theorems": [
    "C84_less",
    "C84_partial_order",
    "C84_degrees_ignored",
    "C84_weak_refuted",
    "C84_constants_last"
   ],
   "note": "Where the comparison returns (it may overflow). Witness that the order is not weak."
  },
  {
   "property": "C85",
   "status": "proved",
   "theorems": [
    "C85_pow",
    "C85_digits_pow",
    "C85_power_refuted"
   ],
   "note": "Exact characterisation of two unfinished functions."
  },
  {
   "property": "C86",
   "status": "proved",
   "theorems": [
    "C86_parse",
    "C86_normalize",
    "C86_substitute",
    "C86_print",
    "C86_history",
    "C86_normalize_value",
    "C86_substitute_value",
    "C86_history_value",
    "C86_parse_exact",
    "C86_normalize_exact",
    "C86_history_exact",
    "C86_history_exact_value",
    "C86_sorts",
    "C86_decides",
    "C86_fixed_point",
    "C86_power_refuted"
   ],
   "note": "Simulation from the exact models to the models with doubles, definition by definition (LiftModel.v), and equality of the two without roots and powers. C86_decides and C86_fixed_point carry C70 and C78 over."
  },
  {
   "property": "C87",
   "status": "proved",
   "theorems": [
    "C87_session",
    "C87_line",
    "C87_start",
    "C87_exact",
    "C87_power_refuted"
   ],
   "note": "Simulation, command by command, over C86 (CliLiftModel.v repeats the commands over the expressions with doubles); the text condition is proved through the tokenizer and the parser."
  },
  {
   "property": "C88",
   "status": "proved",
   "theorems": [
    "C88_fib",
    "C88_line",
    "C88_doubles",
    "C88_start",
    "C88_overflow_refuted"
   ],
   "note": "Over the value theorems of C34-C36 and C44: substitute and normalize are followed step by step through the formula (frac_subst, frac_pow, apply_op), the values are those of Binet's formula in R, which is proved by induction; C88_start computes the tree the 64-bit program starts with, C88_line states it for the typed line, C88_doubles for doubles (through C87), C88_overflow_refuted where it ends."
  },
  {
   "property": "C89",
   "status": "proved",
   "theorems": [
    "C89_radicand",
    "C89_even",
    "C89_even_abs",
    "C89_odd",
    "C89_no_root",
    "C89_odd_refuted",
    "C89_undefined_read_refuted",
    "C89_line_refuted"
   ],
   "note": "C89_even and C89_even_abs give the value of the even case, C89_odd excludes all odd cases but one family, C89_no_root and C89_radicand follow; C89_odd_refuted and C89_line_refuted compute what that family returns. The value the excepted family returns is not characterised beyond these witnesses (the radicand then has a negative denominator and denotes no real number)."
  },
  {
   "property": "C90",
   "status": "proved",
   "theorems": [
    "C90_ignored",
    "C90_value",
    "C90_integer",
    "C90_out_of_range",
    "C90_hexadecimal",
    "C90_hexadecimal_large",
    "C90_agrees",
    "C90_invalid",
    "C90_not_finite_refuted",
    "C90_slash_refuted",
    "C90_texts_refuted"
   ],
   "note": "StoldModel.v is the whole grammar of std::stold (decimal and hexadecimal). The assumptions on the machine are those of C65: correct rounding, glibc's range errors; a hexadecimal number below the normal range is Ub 'not modelled'."
  }
 ]
}