{
 "claims": [
  {
   "property": "C01",
   "status": "proved",
   "theorems": [
    "C01_gcd_terminates",
    "C01_gcd_is_gcd",
    "C01_gcd_both_profiles",
    "C01_gcd_release_min_refuted"
   ],
   "note": ""
  },
  {
   "property": "C02",
   "status": "proved",
   "theorems": [
    "C02_lcm",
    "C02_lcm_completes",
    "C02_lcm_zero_zero",
    "C02_lcm_nonnegative_refuted"
   ],
   "note": "the documented nonnegativity is refuted for operands of opposite sign"
  },
  {
   "property": "C03",
   "status": "proved",
   "theorems": [
    "C03_pow_exact",
    "C03_pow_truncates",
    "C03_pow_refuted"
   ],
   "note": "exponents are taken modulo 2^32"
  },
  {
   "property": "C04",
   "status": "proved",
   "theorems": [
    "C04_new_canonical",
    "C04_new_completes",
    "C04_new_zero_denominator",
    "C04_new_unique"
   ],
   "note": ""
  },
  {
   "property": "C05",
   "status": "proved",
   "theorems": [
    "C05_arithmetic_exact",
    "C05_assign_forms",
    "C05_sum_product",
    "C05_div_by_zero_panics",
    "C05_completes"
   ],
   "note": ""
  },
  {
   "property": "C06",
   "status": "proved",
   "theorems": [
    "C06_release_agrees",
    "C06_release_silent_overflow"
   ],
   "note": ""
  },
  {
   "property": "C07",
   "status": "proved",
   "theorems": [
    "C07_sum_not_reduced_refuted",
    "C07_diff_not_reduced_refuted",
    "C07_mul_history_reduced"
   ],
   "note": ""
  },
  {
   "property": "C08",
   "status": "proved",
   "theorems": [
    "C08_history_exact",
    "C08_predicates",
    "C08_integer_predicates"
   ],
   "note": ""
  },
  {
   "property": "C09",
   "status": "proved",
   "theorems": [
    "C09_cmp_is_order",
    "C09_total_preorder",
    "C09_eq_agrees"
   ],
   "note": ""
  },
  {
   "property": "C10",
   "status": "proved",
   "theorems": [
    "C10_pow_nonneg",
    "C10_pow_negative",
    "C10_pow_negative_misordered_refuted",
    "C10_zero_denominators_refuted"
   ],
   "note": ""
  },
  {
   "property": "C11",
   "status": "proved",
   "theorems": [
    "C11_stability_cmp",
    "C11_epsilon_equals",
    "C11_epsilon_equals_refuted",
    "C11_max_of_sequence"
   ],
   "note": ""
  },
  {
   "property": "C12",
   "status": "proved",
   "theorems": [
    "C12_from_vec",
    "C12_same_monomial",
    "C12_var"
   ],
   "note": ""
  },
  {
   "property": "C13",
   "status": "proved",
   "theorems": [
    "C13_trim_nonzero",
    "C13_trim_all_zero"
   ],
   "note": ""
  },
  {
   "property": "C14",
   "status": "proved",
   "theorems": [
    "C14_add",
    "C14_add_overflow_iff",
    "C14_add_release_refuted"
   ],
   "note": ""
  },
  {
   "property": "C15",
   "status": "proved",
   "theorems": [
    "C15_is_succ",
    "C15_checked_sub",
    "C15_add_back"
   ],
   "note": ""
  },
  {
   "property": "C16",
   "status": "proved",
   "theorems": [
    "C16_total_deg"
   ],
   "note": ""
  },
  {
   "property": "C17",
   "status": "proved",
   "theorems": [
    "C17_lex",
    "C17_revlex",
    "C17_grlex",
    "C17_grevlex"
   ],
   "note": ""
  },
  {
   "property": "C18",
   "status": "proved",
   "theorems": [
    "C18_total_order"
   ],
   "note": ""
  },
  {
   "property": "C19",
   "status": "proved",
   "theorems": [
    "C19_respects_multiplication",
    "C19_zero_least"
   ],
   "note": ""
  },
  {
   "property": "C20",
   "status": "proved",
   "theorems": [
    "C20_no_infinite_descent",
    "C20_unbounded_descent_refuted",
    "C20_revlex_unbounded"
   ],
   "note": ""
  },
  {
   "property": "C21",
   "status": "proved",
   "theorems": [
    "C21_release_graded_refuted",
    "C21_release_below_zero_refuted",
    "C21_checked_panics"
   ],
   "note": ""
  },
  {
   "property": "C22",
   "status": "proved",
   "theorems": [
    "C22_term_new",
    "C22_from_coef_and_term",
    "C22_var_one_zero",
    "C22_poly_new"
   ],
   "note": ""
  },
  {
   "property": "C23",
   "status": "proved",
   "theorems": [
    "C23_add",
    "C23_sub",
    "C23_neg"
   ],
   "note": ""
  },
  {
   "property": "C24",
   "status": "proved",
   "theorems": [
    "C24_mul",
    "C24_term_degree"
   ],
   "note": ""
  },
  {
   "property": "C25",
   "status": "proved",
   "theorems": [
    "C25_clean",
    "C25_equal_polys_same_support"
   ],
   "note": ""
  },
  {
   "property": "C26",
   "status": "proved",
   "theorems": [
    "C26_add_laws",
    "C26_mul_laws",
    "C26_mul_term_injective"
   ],
   "note": ""
  },
  {
   "property": "C27",
   "status": "proved",
   "theorems": [
    "C27_eval_value",
    "C27_homomorphism"
   ],
   "note": ""
  },
  {
   "property": "C28",
   "status": "proved",
   "theorems": [
    "C28_try_div",
    "C28_zero_operands",
    "C28_divides_agrees"
   ],
   "note": ""
  },
  {
   "property": "C29",
   "status": "proved",
   "theorems": [
    "C29_div_scalar",
    "C29_div_by_zero"
   ],
   "note": ""
  },
  {
   "property": "C30",
   "status": "proved",
   "theorems": [
    "C30_sort_terms",
    "C30_order_independent",
    "C30_only_overflow",
    "C30_lex_revlex_total"
   ],
   "note": ""
  },
  {
   "property": "C31",
   "status": "proved",
   "theorems": [
    "C31_leading_term",
    "C31_last_maximum",
    "C31_clean"
   ],
   "note": ""
  },
  {
   "property": "C32",
   "status": "proved",
   "theorems": [
    "C32_division_identity"
   ],
   "note": ""
  },
  {
   "property": "C33",
   "status": "proved",
   "theorems": [
    "C33_remainder_reduced"
   ],
   "note": ""
  },
  {
   "property": "C34",
   "status": "proved",
   "theorems": [
    "C34_degree_bound",
    "C34_leading"
   ],
   "note": ""
  },
  {
   "property": "C35",
   "status": "proved",
   "theorems": [
    "C35_division_terminates"
   ],
   "note": ""
  },
  {
   "property": "C36",
   "status": "proved",
   "theorems": [
    "C36_monic_lcm",
    "C36_zero"
   ],
   "note": ""
  },
  {
   "property": "C37",
   "status": "proved",
   "theorems": [
    "C37_s_polynomial",
    "C37_none"
   ],
   "note": ""
  },
  {
   "property": "C38",
   "status": "proved",
   "theorems": [
    "C38_criterion_decides",
    "C38_criterion_terminates"
   ],
   "note": ""
  },
  {
   "property": "C39",
   "status": "proved",
   "theorems": [
    "C39_same_ideal"
   ],
   "note": ""
  },
  {
   "property": "C40",
   "status": "proved",
   "theorems": [
    "C40_groebner_basis",
    "C40_criterion_accepts"
   ],
   "note": ""
  },
  {
   "property": "C41",
   "status": "proved",
   "theorems": [
    "C41_inter_reduced",
    "C41_minimal"
   ],
   "note": ""
  },
  {
   "property": "C42",
   "status": "proved",
   "theorems": [
    "C42_unique_up_to_scaling",
    "C42_monic_refuted"
   ],
   "note": ""
  },
  {
   "property": "C43",
   "status": "proved",
   "theorems": [
    "C43_algorithm_terminates"
   ],
   "note": ""
  },
  {
   "property": "C44",
   "status": "proved",
   "theorems": [
    "C44_zero_generator_algorithm",
    "C44_zero_generator_never_returns",
    "C44_zero_generator_criterion",
    "C44_single_generator"
   ],
   "note": ""
  },
  {
   "property": "C45",
   "status": "proved",
   "theorems": [
    "C45_membership",
    "C45_remainder_order_independent"
   ],
   "note": ""
  },
  {
   "property": "C46",
   "status": "proved",
   "theorems": [
    "C46_new",
    "C46_identity",
    "C46_zero",
    "C46_e",
    "C46_scale_mat",
    "C46_permutation",
    "C46_replacement",
    "C46_permutation_from_vec",
    "C46_from_col_vectors",
    "C46_from_row_vectors",
    "C46_vectors_panic",
    "C46_get_row_col_transpose",
    "C46_index_iter"
   ],
   "note": ""
  },
  {
   "property": "C47",
   "status": "proved",
   "theorems": [
    "C47_add",
    "C47_mul",
    "C47_scalar",
    "C47_panics",
    "C47_mul_assoc",
    "C47_mul_distrib",
    "C47_mul_distrib_r",
    "C47_identity_unit",
    "C47_transpose_mul",
    "C47_transpose_involutive",
    "C47_dot_norm"
   ],
   "note": ""
  },
  {
   "property": "C48",
   "status": "proved",
   "theorems": [
    "C48_scale_row_frame",
    "C48_permute_rows_exact",
    "C48_replace_row_frame",
    "C48_scale_row",
    "C48_permute_rows",
    "C48_replace_row",
    "C48_replace_row_same"
   ],
   "note": ""
  },
  {
   "property": "C49",
   "status": "proved",
   "theorems": [
    "C49_lu",
    "C49_documented"
   ],
   "note": ""
  },
  {
   "property": "C50",
   "status": "proved",
   "theorems": [
    "C50_lu_shapes"
   ],
   "note": ""
  },
  {
   "property": "C51",
   "status": "proved",
   "theorems": [
    "C51_row_echelon"
   ],
   "note": ""
  },
  {
   "property": "C52",
   "status": "proved",
   "theorems": [
    "C52_to_rref",
    "C52_rref"
   ],
   "note": ""
  },
  {
   "property": "C53",
   "status": "proved",
   "theorems": [
    "C53_rank",
    "C53_nullity"
   ],
   "note": ""
  },
  {
   "property": "C54",
   "status": "proved",
   "theorems": [
    "C54_kernel",
    "C54_kernel_mul"
   ],
   "note": ""
  },
  {
   "property": "C55",
   "status": "proved",
   "theorems": [
    "C55_range",
    "C55_order_exists"
   ],
   "note": ""
  },
  {
   "property": "C56",
   "status": "proved",
   "theorems": [
    "C56_no_panic",
    "C56_total"
   ],
   "note": ""
  },
  {
   "property": "C57",
   "status": "proved",
   "theorems": [
    "C57_square",
    "C57_general",
    "C57_nonsquare_refuted"
   ],
   "note": "correct on square matrices; refuted otherwise"
  },
  {
   "property": "C58",
   "status": "proved",
   "theorems": [
    "C58_epsilon_equals",
    "C58_shapes"
   ],
   "note": ""
  },
  {
   "property": "C59",
   "status": "proved",
   "theorems": [
    "C59_digits",
    "C59_digits_release",
    "C59_base_one",
    "C59_panics"
   ],
   "note": ""
  },
  {
   "property": "C60",
   "status": "proved",
   "theorems": [
    "C60_enumeration",
    "C60_no_values",
    "C60_overflow",
    "C60_exponent_truncated"
   ],
   "note": "under the condition that the count fits usize; the empty value list with n*m = 0, overflow and exponent truncation are stated separately"
  },
  {
   "property": "C61",
   "status": "proved",
   "theorems": [
    "C61_last_maximum",
    "C61_panics"
   ],
   "note": ""
  },
  {
   "property": "C62",
   "status": "proved",
   "theorems": [
    "C62_superscript_decimal",
    "C62_superscript_injective"
   ],
   "note": ""
  },
  {
   "property": "C63",
   "status": "proved",
   "theorems": [
    "C63_display_total",
    "C63_display_injective"
   ],
   "note": ""
  },
  {
   "property": "C64",
   "status": "proved",
   "theorems": [
    "C64_xyz_agree",
    "C64_w_printed_as_u",
    "C64_u_printed_as_v",
    "C64_v_printed_as_list",
    "C64_letter_w_never_printed",
    "C64_names_agree_refuted"
   ],
   "note": "x, y, z agree; w, u, v do not: names_agree is refuted"
  },
  {
   "property": "C65",
   "status": "proved",
   "theorems": [
    "C65_dimension",
    "C65_orthogonal_complement",
    "C65_facets"
   ],
   "note": ""
  },
  {
   "property": "C66",
   "status": "proved",
   "theorems": [
    "C66_no_generators",
    "C66_rank_zero",
    "C66_rank_one",
    "C66_otherwise_defined"
   ],
   "note": ""
  },
  {
   "property": "C67",
   "status": "proved",
   "theorems": [
    "C67_division_determined",
    "C67_storage_order"
   ],
   "note": ""
  },
  {
   "property": "C68",
   "status": "proved",
   "theorems": [
    "C68_leading_term_multiplicative"
   ],
   "note": ""
  },
  {
   "property": "C69",
   "status": "proved",
   "theorems": [
    "C69_rref_unique",
    "C69_rref_characterised"
   ],
   "note": ""
  },
  {
   "property": "C70",
   "status": "proved",
   "theorems": [
    "C70_lu_u_is_row_echelon_b"
   ],
   "note": ""
  },
  {
   "property": "C71",
   "status": "proved",
   "theorems": [
    "C71_inverse"
   ],
   "note": ""
  },
  {
   "property": "C72",
   "status": "proved",
   "theorems": [
    "C72_rank_transpose"
   ],
   "note": ""
  },
  {
   "property": "C73",
   "status": "proved",
   "theorems": [
    "C73_rank_product"
   ],
   "note": ""
  },
  {
   "property": "C74",
   "status": "proved",
   "theorems": [
    "C74_rational_display_injective",
    "C74_term_display_injective",
    "C74_term_display_total",
    "C74_rational_display_sign"
   ],
   "note": ""
  },
  {
   "property": "C75",
   "status": "proved",
   "theorems": [
    "C75_polynomial_display_injective",
    "C75_polynomial_display_panics",
    "C75_zero_display"
   ],
   "note": ""
  },
  {
   "property": "C76",
   "status": "proved",
   "theorems": [
    "C76_complete_off_first_generator",
    "C76_complete_refuted",
    "C76_proper_faces_refuted",
    "C76_distinct_refuted"
   ],
   "note": "completeness off the first generator proved; general completeness, properness and distinctness refuted"
  },
  {
   "property": "C77",
   "status": "proved",
   "theorems": [
    "C77_multidegrees_release",
    "C77_polynomials_release",
    "C77_computer_release",
    "C77_matrices_release",
    "C77_elimination_release",
    "C77_cone_release"
   ],
   "note": ""
  },
  {
   "property": "C78",
   "status": "proved",
   "theorems": [
    "C78_arithmetic",
    "C78_eval",
    "C78_division",
    "C78_groebner",
    "C78_elimination",
    "C78_transformation_refuted"
   ],
   "note": "the transformation p is refuted to be representation independent"
  },
  {
   "property": "C79",
   "status": "proved",
   "theorems": [
    "C79_operations",
    "C79_integers",
    "C79_all_integers_exist",
    "C79_integers_refuted"
   ],
   "note": ""
  },
  {
   "property": "C80",
   "status": "proved",
   "theorems": [
    "C80_polynomials",
    "C80_computer",
    "C80_division",
    "C80_elimination",
    "C80_cone",
    "C80_lu"
   ],
   "note": ""
  },
  {
   "property": "C81",
   "status": "proved",
   "theorems": [
    "C81_underflow_diverges",
    "C81_nonfinite_diverges",
    "C81_stuck_diverges",
    "C81_division_terminates_refuted",
    "C81_buchberger_terminates_refuted"
   ],
   "note": ""
  },
  {
   "property": "C82",
   "status": "proved",
   "theorems": [
    "C82_division",
    "C82_extend",
    "C82_criterion",
    "C82_minimize",
    "C82_reduce",
    "C82_algorithm"
   ],
   "note": ""
  },
  {
   "property": "C83",
   "status": "proved",
   "theorems": [
    "C83_outcomes",
    "C83_pivot",
    "C83_pivot_nan",
    "C83_nullity_release",
    "C83_rank_refuted",
    "C83_nullity_release_refuted",
    "C83_pivot_one_refuted",
    "C83_lu_refuted",
    "C83_finite_panics_refuted"
   ],
   "note": ""
  },
  {
   "property": "C84",
   "status": "proved",
   "theorems": [
    "C84_nearest",
    "C84_operations",
    "C84_dot",
    "C84_frobenius",
    "C84_mul",
    "C84_add"
   ],
   "note": ""
  },
  {
   "property": "C85",
   "status": "proved",
   "theorems": [
    "C85_add",
    "C85_neg",
    "C85_sub",
    "C85_mul_term",
    "C85_mul",
    "C85_sub_float",
    "C85_add_comm",
    "C85_mul_nonzero_refuted",
    "C85_add_assoc_refuted"
   ],
   "note": ""
  },
  {
   "property": "C86",
   "status": "proved",
   "theorems": [
    "C86_add",
    "C86_sub",
    "C86_mul"
   ],
   "note": ""
  },
  {
   "property": "C87",
   "status": "proved",
   "theorems": [
    "C87_epsilon_equals",
    "C87_epsilon_symmetric",
    "C87_epsilon_reflexive",
    "C87_epsilon_transitive_refuted",
    "C87_epsilon_boundary_refuted",
    "C87_epsilon_large",
    "C87_epsilon_small",
    "C87_stability_cmp",
    "C87_stability_nonfinite"
   ],
   "note": ""
  },
  {
   "property": "C88",
   "status": "proved",
   "theorems": [
    "C88_rational",
    "C88_value_refuted",
    "C88_hash",
    "C88_hash_order_refuted",
    "C88_matrix",
    "C88_float",
    "C88_float_equivalence",
    "C88_float_reflexive_refuted"
   ],
   "note": ""
  },
  {
   "property": "C89",
   "status": "proved",
   "theorems": [
    "C89_text",
    "C89_defined",
    "C89_lines",
    "C89_injective",
    "C89_injective_plain",
    "C89_empty_refuted"
   ],
   "note": ""
  },
  {
   "property": "C90",
   "status": "proved",
   "theorems": [
    "C90_total",
    "C90_append",
    "C90_sign",
    "C90_injective",
    "C90_zero",
    "C90_zero_coefficient_refuted",
    "C90_rational_agreement"
   ],
   "note": ""
  },
  {
   "property": "C91",
   "status": "proved",
   "theorems": [
    "C91_backward",
    "C91_finite",
    "C91_lower",
    "C91_permutation"
   ],
   "note": ""
  },
  {
   "property": "C92",
   "status": "proved",
   "theorems": [
    "C92_congruence",
    "C92_idempotent",
    "C92_linear",
    "C92_multiplicative"
   ],
   "note": ""
  },
  {
   "property": "C93",
   "status": "proved",
   "theorems": [
    "C93_zero_set",
    "C93_remainder_value"
   ],
   "note": ""
  },
  {
   "property": "C94",
   "status": "proved",
   "theorems": [
    "C94_unit_ideal",
    "C94_no_common_zero"
   ],
   "note": ""
  },
  {
   "property": "C95",
   "status": "proved",
   "theorems": [
    "C95_lex",
    "C95_revlex"
   ],
   "note": ""
  },
  {
   "property": "C96",
   "status": "proved",
   "theorems": [
    "C96_variables",
    "C96_evaluable"
   ],
   "note": ""
  },
  {
   "property": "C97",
   "status": "proved",
   "theorems": [
    "C97_containment",
    "C97_equality"
   ],
   "note": ""
  },
  {
   "property": "C98",
   "status": "proved",
   "theorems": [
    "C98_gcd"
   ],
   "note": ""
  },
  {
   "property": "C99",
   "status": "proved",
   "theorems": [
    "C99_values",
    "C99_cleaning",
    "C99_division_identity",
    "C99_repeated_degree_no_result",
    "C99_zero_leading_term_diverges",
    "C99_repeated_degree_diverges",
    "C99_is_zero_refuted",
    "C99_zero_value_refuted"
   ],
   "note": "is_zero and termination of divide are refuted for such polynomials"
  },
  {
   "property": "C100",
   "status": "proved",
   "theorems": [
    "C100_gcd_steps",
    "C100_gcd_91",
    "C100_gcd_91_tight",
    "C100_divide_steps",
    "C100_divide_256",
    "C100_divide_univariate",
    "C100_divide_graded",
    "C100_graded_orders"
   ],
   "note": ""
  },
  {
   "property": "C101",
   "status": "proved",
   "theorems": [
    "C101_checked_sub",
    "C101_checked_sub_refuted",
    "C101_is_succ",
    "C101_is_succ_refuted",
    "C101_lex",
    "C101_grlex",
    "C101_revlex_refuted",
    "C101_same_monomial",
    "C101_division_no_result"
   ],
   "note": "completeness of checked_sub and is_succ, RevLex, GRevLex and division are refuted for such vectors"
  },
  {
   "property": "C102",
   "status": "proved",
   "theorems": [
    "C102_inside",
    "C102_description",
    "C102_exact",
    "C102_whole_space",
    "C102_exact_refuted"
   ],
   "note": "exactness without a condition on the first generator is refuted"
  },
  {
   "property": "C103",
   "status": "proved",
   "theorems": [
    "C103_add_sub",
    "C103_mul",
    "C103_eval",
    "C103_mat_add_scale",
    "C103_dot",
    "C103_frobenius",
    "C103_mat_mul",
    "C103_integers"
   ],
   "note": ""
  },
  {
   "property": "C104",
   "status": "proved",
   "theorems": [
    "C104_solvable",
    "C104_solution",
    "C104_unique",
    "C104_left_kernel",
    "C104_rouche_capelli"
   ],
   "note": ""
  },
  {
   "property": "C105",
   "status": "proved",
   "theorems": [
    "C105_radical",
    "C105_radical_vanishes",
    "C105_saturation_lex",
    "C105_saturation_revlex"
   ],
   "note": ""
  },
  {
   "property": "C106",
   "status": "proved",
   "theorems": [
    "C106_intersection_lex",
    "C106_intersection_revlex",
    "C106_quotient"
   ],
   "note": ""
  },
  {
   "property": "C107",
   "status": "proved",
   "theorems": [
    "C107_finite",
    "C107_normal_form",
    "C107_dimension"
   ],
   "note": ""
  },
  {
   "property": "C108",
   "status": "proved",
   "theorems": [
    "C108_zeros",
    "C108_product",
    "C108_roots"
   ],
   "note": ""
  },
  {
   "property": "C109",
   "status": "proved",
   "theorems": [
    "C109_homogeneous",
    "C109_ideal",
    "C109_division",
    "C109_spoly"
   ],
   "note": ""
  },
  {
   "property": "C110",
   "status": "proved",
   "theorems": [
    "C110_division",
    "C110_spoly",
    "C110_two_terms",
    "C110_monomials"
   ],
   "note": ""
  },
  {
   "property": "C111",
   "status": "proved",
   "theorems": [
    "C111_lu",
    "C111_mul",
    "C111_transpose",
    "C111_row_operations",
    "C111_rank"
   ],
   "note": ""
  },
  {
   "property": "C112",
   "status": "proved",
   "theorems": [
    "C112_kernel",
    "C112_points",
    "C112_implicit_lex",
    "C112_implicit_revlex",
    "C112_subalgebra_lex",
    "C112_subalgebra_revlex"
   ],
   "note": ""
  },
  {
   "property": "C113",
   "status": "proved",
   "theorems": [
    "C113_rref",
    "C113_orders"
   ],
   "note": ""
  },
  {
   "property": "C114",
   "status": "proved",
   "theorems": [
    "C114_term",
    "C114_poly",
    "C114_mat",
    "C114_eval_message",
    "C114_mat_display_plain",
    "C114_mat_display_text",
    "C114_mat_display_injective",
    "C114_numbers",
    "C114_rational",
    "C114_plain",
    "C114_rat_debug",
    "C114_text",
    "C114_text_alternate"
   ],
   "note": ""
  },
  {
   "property": "C115",
   "status": "proved",
   "theorems": [
    "C115_solvable",
    "C115_orthogonal",
    "C115_gram",
    "C115_least_squares"
   ],
   "note": ""
  },
  {
   "property": "C116",
   "status": "proved",
   "theorems": [
    "C116_arith",
    "C116_increasing",
    "C116_reversing",
    "C116_meaning"
   ],
   "note": ""
  },
  {
   "property": "C117",
   "status": "proved",
   "theorems": [
    "C117_basis",
    "C117_membership",
    "C117_unit",
    "C117_zeros",
    "C117_count",
    "C117_linear"
   ],
   "note": ""
  },
  {
   "property": "C118",
   "status": "proved",
   "theorems": [
    "C118_degree",
    "C118_homogeneous",
    "C118_independent",
    "C118_independent_homogeneous",
    "C118_exists",
    "C118_lex_refuted"
   ],
   "note": ""
  },
  {
   "property": "C119",
   "status": "proved",
   "theorems": [
    "C119_int_pow",
    "C119_usize_pow",
    "C119_usize_range"
   ],
   "note": ""
  },
  {
   "property": "C120",
   "status": "proved",
   "theorems": [
    "C120_free",
    "C120_independent",
    "C120_dimension",
    "C120_invariant",
    "C120_orders"
   ],
   "note": ""
  },
  {
   "property": "C121",
   "status": "proved",
   "theorems": [
    "C121_lu",
    "C121_row_echelon",
    "C121_is_rref",
    "C121_is_rref_wide",
    "C121_is_rref_columns_refuted",
    "C121_all",
    "C121_for_each",
    "C121_multi_product",
    "C121_multi_product_order",
    "C121_rref",
    "C121_kernel",
    "C121_kernel_wide",
    "C121_kernel_full_rank",
    "C121_division",
    "C121_division_rational_refuted",
    "C121_division_float",
    "C121_is_rref_pivots_refuted",
    "C121_polys"
   ],
   "note": ""
  },
  {
   "property": "C122",
   "status": "proved",
   "theorems": [
    "C122_write_deg",
    "C122_write_deg_canonical",
    "C122_write_deg_trim",
    "C122_write_deg_trim_refuted",
    "C122_write_term",
    "C122_map_coefs",
    "C122_outside",
    "C122_primitives",
    "C122_ranges",
    "C122_overflow",
    "C122_float_zero"
   ],
   "note": ""
  },
  {
   "property": "C123",
   "status": "proved",
   "theorems": [
    "C123_add",
    "C123_sub",
    "C123_neg",
    "C123_mul",
    "C123_mat_add",
    "C123_mat_scale",
    "C123_mat_mul",
    "C123_bound_refuted"
   ],
   "note": ""
  },
  {
   "property": "C124",
   "status": "proved",
   "theorems": [
    "C124_divide_fits",
    "C124_graded",
    "C124_univariate",
    "C124_lex_refuted"
   ],
   "note": ""
  },
  {
   "property": "C125",
   "status": "proved",
   "theorems": [
    "C125_univariate",
    "C125_graded",
    "C125_bound_refuted"
   ],
   "note": ""
  },
  {
   "property": "C126",
   "status": "proved",
   "theorems": [
    "C126_row_echelon",
    "C126_lu",
    "C126_rref",
    "C126_inverse",
    "C126_two_rows",
    "C126_three_rows",
    "C126_bound_refuted"
   ],
   "note": ""
  },
  {
   "property": "C127",
   "status": "proved",
   "theorems": [
    "C127_division",
    "C127_s_polynomial",
    "C127_criterion",
    "C127_extend",
    "C127_minimize",
    "C127_reduce",
    "C127_algorithm",
    "C127_sums_refuted"
   ],
   "note": ""
  },
  {
   "property": "C128",
   "status": "proved",
   "theorems": [
    "C128_facets",
    "C128_order",
    "C128_number",
    "C128_float_numbers",
    "C128_float_above"
   ],
   "note": ""
  },
  {
   "property": "C129",
   "status": "proved",
   "theorems": [
    "C129_criterion",
    "C129_extend",
    "C129_algorithm",
    "C129_minimal",
    "C129_rational",
    "C129_exact",
    "C129_float",
    "C129_float_refuted"
   ],
   "note": ""
  },
  {
   "property": "C130",
   "status": "proved",
   "theorems": [
    "C130_groebner",
    "C130_pair",
    "C130_extend",
    "C130_algorithm",
    "C130_dimension"
   ],
   "note": ""
  },
  {
   "property": "C131",
   "status": "proved",
   "theorems": [
    "C131_add",
    "C131_divide",
    "C131_divide_storage",
    "C131_algorithm",
    "C131_algorithm_descending"
   ],
   "note": ""
  },
  {
   "property": "C132",
   "status": "proved",
   "theorems": [
    "C132_arithmetic",
    "C132_division",
    "C132_division_panics",
    "C132_release_ring",
    "C132_checked_associative_refuted",
    "C132_release_rational",
    "C132_release_denominator_refuted"
   ],
   "note": ""
  },
  {
   "property": "C133",
   "status": "proved",
   "theorems": [
    "C133_term_constructors",
    "C133_term_eval",
    "C133_grad",
    "C133_box",
    "C133_index",
    "C133_swap",
    "C133_zero_rows",
    "C133_rational",
    "C133_main"
   ],
   "note": ""
  },
  {
   "property": "C134",
   "status": "proved",
   "theorems": [
    "C134_product",
    "C134_membership",
    "C134_solvable",
    "C134_count"
   ],
   "note": ""
  },
  {
   "property": "C135",
   "status": "proved",
   "theorems": [
    "C135_relation",
    "C135_all",
    "C135_output"
   ],
   "note": ""
  },
  {
   "property": "C136",
   "status": "proved",
   "theorems": [
    "C136_relations",
    "C136_independent",
    "C136_powers",
    "C136_multiplication"
   ],
   "note": ""
  },
  {
   "property": "C137",
   "status": "proved",
   "theorems": [
    "C137_leading",
    "C137_rows",
    "C137_macaulay"
   ],
   "note": ""
  },
  {
   "property": "C138",
   "status": "proved",
   "theorems": [
    "C138_rank",
    "C138_coprime"
   ],
   "note": ""
  },
  {
   "property": "C139",
   "status": "proved",
   "theorems": [
    "C139_word",
    "C139_normal_form",
    "C139_same_normal_form"
   ],
   "note": ""
  },
  {
   "property": "C140",
   "status": "proved",
   "theorems": [
    "C140_division",
    "C140_terminates",
    "C140_criterion",
    "C140_any_choice"
   ],
   "note": ""
  },
  {
   "property": "C141",
   "status": "proved",
   "theorems": [
    "C141_leading",
    "C141_quotient",
    "C141_saturation",
    "C141_section"
   ],
   "note": ""
  },
  {
   "property": "C142",
   "status": "proved",
   "theorems": [
    "C142_set_one",
    "C142_member",
    "C142_homogenize",
    "C142_generators_refuted"
   ],
   "note": ""
  },
  {
   "property": "C143",
   "status": "proved",
   "theorems": [
    "C143_mul",
    "C143_division",
    "C143_buchberger",
    "C143_eval",
    "C143_zeros",
    "C143_divide_ends_refuted",
    "C143_mul_refuted",
    "C143_division_refuted",
    "C143_buchberger_refuted",
    "C143_buchberger_returns_refuted"
   ],
   "note": "Release arithmetic of the exponents with exact coefficients; the loop is shown with release arithmetic of the coefficients as well"
  },
  {
   "property": "C144",
   "status": "proved",
   "theorems": [
    "C144_values",
    "C144_vanishing",
    "C144_prescribed",
    "C144_standard",
    "C144_vandermonde"
   ],
   "note": ""
  },
  {
   "property": "C145",
   "status": "proved",
   "theorems": [
    "C145_remainder",
    "C145_ring",
    "C145_equal",
    "C145_zeros",
    "C145_eigenvalues",
    "C145_polynomial"
   ],
   "note": ""
  },
  {
   "property": "C146",
   "status": "proved",
   "theorems": [
    "C146_standard",
    "C146_element",
    "C146_basis"
   ],
   "note": ""
  },
  {
   "property": "C147",
   "status": "proved",
   "theorems": [
    "C147_least",
    "C147_lex"
   ],
   "note": ""
  },
  {
   "property": "C148",
   "status": "proved",
   "theorems": [
    "C148_bases",
    "C148_dimensions"
   ],
   "note": ""
  },
  {
   "property": "C149",
   "status": "proved",
   "theorems": [
    "C149_backward",
    "C149_shape"
   ],
   "note": ""
  },
  {
   "property": "C150",
   "status": "proved",
   "theorems": [
    "C150_groebner",
    "C150_pair",
    "C150_triple"
   ],
   "note": ""
  },
  {
   "property": "C151",
   "status": "proved",
   "theorems": [
    "C151_term",
    "C151_eval"
   ],
   "note": ""
  },
  {
   "property": "C152",
   "status": "proved",
   "theorems": [
    "C152_criterion",
    "C152_remainder",
    "C152_algorithm",
    "C152_same",
    "C152_one",
    "C152_two"
   ],
   "note": ""
  },
  {
   "property": "C153",
   "status": "proved",
   "theorems": [
    "C153_sum",
    "C153_product"
   ],
   "note": ""
  },
  {
   "property": "C154",
   "status": "proved",
   "theorems": [
    "C154_rational",
    "C154_float"
   ],
   "note": ""
  }
 ]
}
