{
 "claims": [
  {
   "property": "C01",
   "status": "proved",
   "theorems": [
    "C01_new",
    "C01_get_range",
    "C01_set",
    "C01_macro"
   ],
   "note": ""
  },
  {
   "property": "C02",
   "status": "proved",
   "theorems": [
    "C02_constants"
   ],
   "note": ""
  },
  {
   "property": "C03",
   "status": "proved",
   "theorems": [
    "C03_get_column",
    "C03_get_row",
    "C03_set_column",
    "C03_set_row"
   ],
   "note": ""
  },
  {
   "property": "C04",
   "status": "proved",
   "theorems": [
    "C04_get_slice",
    "C04_set_slice",
    "C04_set_get_slice"
   ],
   "note": ""
  },
  {
   "property": "C05",
   "status": "proved",
   "theorems": [
    "C05_transpose_storage",
    "C05_transpose_permutes",
    "C05_transpose_involutive",
    "C05_transpose_meaning_iff",
    "C05_transpose_meaning_refuted",
    "C05_transpose_empty"
   ],
   "note": ""
  },
  {
   "property": "C06",
   "status": "proved",
   "theorems": [
    "C06_add",
    "C06_add_panics",
    "C06_scalar",
    "C06_laws"
   ],
   "note": ""
  },
  {
   "property": "C07",
   "status": "proved",
   "theorems": [
    "C07_mul",
    "C07_mul_panics",
    "C07_assoc",
    "C07_distr",
    "C07_one",
    "C07_transpose"
   ],
   "note": ""
  },
  {
   "property": "C08",
   "status": "proved",
   "theorems": [
    "C08_matrix_vector",
    "C08_vector_matrix",
    "C08_panics",
    "C08_scalar",
    "C08_div_mul",
    "C08_assoc",
    "C08_row_vector_accepted_refuted"
   ],
   "note": ""
  },
  {
   "property": "C09",
   "status": "proved",
   "theorems": [
    "C09_trace",
    "C09_trace_panics",
    "C09_linear",
    "C09_cyclic"
   ],
   "note": ""
  },
  {
   "property": "C10",
   "status": "proved",
   "theorems": [
    "C10_eq",
    "C10_equivalence",
    "C10_identity"
   ],
   "note": ""
  },
  {
   "property": "C11",
   "status": "proved",
   "theorems": [
    "C11_approx",
    "C11_approx_empty",
    "C11_approx_vector",
    "C11_all_entries_close_refuted"
   ],
   "note": ""
  },
  {
   "property": "C12",
   "status": "proved",
   "theorems": [
    "C12_rows",
    "C12_columns",
    "C12_elements"
   ],
   "note": ""
  },
  {
   "property": "C13",
   "status": "proved",
   "theorems": [
    "C13_shape",
    "C13_nonsquare_panics",
    "C13_never_err"
   ],
   "note": ""
  },
  {
   "property": "C14",
   "status": "proved",
   "theorems": [
    "C14_identity_with_error",
    "C14_identity_iff",
    "C14_identity_nonzero_pivots",
    "C14_pivot_choice",
    "C14_diagonally_dominant",
    "C14_identity_refuted"
   ],
   "note": ""
  },
  {
   "property": "C15",
   "status": "proved",
   "theorems": [
    "C15_forward_vector",
    "C15_backward_vector",
    "C15_forward_matrix",
    "C15_backward_matrix",
    "C15_only_triangle_read",
    "C15_zero_diagonal_refuted"
   ],
   "note": ""
  },
  {
   "property": "C16",
   "status": "proved",
   "theorems": [
    "C16_solve_vector",
    "C16_solve_matrix",
    "C16_stored_decomposition",
    "C16_solve_diagonally_dominant"
   ],
   "note": ""
  },
  {
   "property": "C17",
   "status": "proved",
   "theorems": [
    "C17_inverse",
    "C17_inverse_diagonally_dominant",
    "C17_inverse_is_solve"
   ],
   "note": ""
  },
  {
   "property": "C18",
   "status": "proved",
   "theorems": [
    "C18_always_ok",
    "C18_singular_refuted",
    "C18_invertible_refuted",
    "C18_positive_definite_refuted",
    "C18_inverse_refuted"
   ],
   "note": ""
  },
  {
   "property": "C19",
   "status": "proved",
   "theorems": [
    "C19_determinant_exists_unique",
    "C19_small",
    "C19_three",
    "C19_single_cycle",
    "C19_no_row_exchange",
    "C19_up_to_sign",
    "C19_sign_refuted",
    "C19_pivot_refuted"
   ],
   "note": ""
  },
  {
   "property": "C20",
   "status": "proved",
   "theorems": [
    "C20_cholesky_spd",
    "C20_positive_iff",
    "C20_positive_diagonal",
    "C20_unique",
    "C20_never_err",
    "C20_reads_lower_triangle",
    "C20_nonsquare_panics",
    "C20_not_reported_refuted"
   ],
   "note": ""
  },
  {
   "property": "C21",
   "status": "proved",
   "theorems": [
    "C21_qr",
    "C21_upper",
    "C21_first_column",
    "C21_wide_panics",
    "C21_upper_triangular",
    "C21_not_upper_refuted"
   ],
   "note": ""
  },
  {
   "property": "C22",
   "status": "proved",
   "theorems": [
    "C22_givens_entries",
    "C22_givens_rotates",
    "C22_givens_orthogonal_iff",
    "C22_givens_panics",
    "C22_givens_same_index_refuted",
    "C22_pair"
   ],
   "note": ""
  },
  {
   "property": "C23",
   "status": "proved",
   "theorems": [
    "C23_householder",
    "C23_single",
    "C23_zero_tail_refuted",
    "C23_panics",
    "C23_reflector",
    "C23_reflector_iff",
    "C23_reflector_refuted"
   ],
   "note": ""
  },
  {
   "property": "C24",
   "status": "proved",
   "theorems": [
    "C24_hessenberg",
    "C24_returns",
    "C24_panics_refuted"
   ],
   "note": ""
  },
  {
   "property": "C25",
   "status": "proved",
   "theorems": [
    "C25_new",
    "C25_macro",
    "C25_scalar",
    "C25_constants",
    "C25_get",
    "C25_set",
    "C25_get_slice",
    "C25_set_slice",
    "C25_transpose"
   ],
   "note": ""
  },
  {
   "property": "C26",
   "status": "proved",
   "theorems": [
    "C26_dotp",
    "C26_dotp_panics",
    "C26_dotp_bilinear",
    "C26_dotp_positive",
    "C26_dyadp",
    "C26_dyadp_row"
   ],
   "note": ""
  },
  {
   "property": "C27",
   "status": "proved",
   "theorems": [
    "C27_euclidean",
    "C27_triangle",
    "C27_even_p",
    "C27_small_p_panics",
    "C27_odd_p_refuted"
   ],
   "note": ""
  },
  {
   "property": "C28",
   "status": "proved",
   "theorems": [
    "C28_argmax",
    "C28_argmin"
   ],
   "note": ""
  },
  {
   "property": "C29",
   "status": "proved",
   "theorems": [
    "C29_from_coef",
    "C29_eval",
    "C29_eval_horner",
    "C29_add",
    "C29_mul",
    "C29_neg",
    "C29_sub",
    "C29_sub_iff",
    "C29_sub_refuted"
   ],
   "note": ""
  },
  {
   "property": "C30",
   "status": "proved",
   "theorems": [
    "C30_from_root",
    "C30_roots",
    "C30_empty"
   ],
   "note": ""
  },
  {
   "property": "C31",
   "status": "proved",
   "theorems": [
    "C31_reduce",
    "C31_div",
    "C31_div_real",
    "C31_div_exact",
    "C31_short"
   ],
   "note": ""
  },
  {
   "property": "C32",
   "status": "proved",
   "theorems": [
    "C32_differentiate",
    "C32_differentiate_exact",
    "C32_derivative",
    "C32_derivative_close",
    "C32_integrate",
    "C32_antiderivative",
    "C32_antiderivative_close",
    "C32_differentiate_integrate",
    "C32_differentiate_integrate_close"
   ],
   "note": ""
  },
  {
   "property": "C33",
   "status": "proved",
   "theorems": [
    "C33_ring",
    "C33_imaginary_unit",
    "C33_div_panics_iff",
    "C33_div",
    "C33_div_panics_iff_f64_refuted",
    "C33_eq",
    "C33_order_antisymmetric_refuted",
    "C33_order",
    "C33_operate"
   ],
   "note": ""
  },
  {
   "property": "C34",
   "status": "proved",
   "theorems": [
    "C34_conj",
    "C34_conj_div",
    "C34_abs",
    "C34_abs_conj",
    "C34_abs_norm",
    "C34_polar",
    "C34_arctan2",
    "C34_polar_unique"
   ],
   "note": ""
  },
  {
   "property": "C35",
   "status": "proved",
   "theorems": [
    "C35_exp",
    "C35_exp_ln",
    "C35_ln_exp_iff",
    "C35_sin_cos",
    "C35_addition",
    "C35_sinh_cosh",
    "C35_tan",
    "C35_sec_csc_cot",
    "C35_hyperbolic",
    "C35_csch_refuted"
   ],
   "note": ""
  },
  {
   "property": "C36",
   "status": "proved",
   "theorems": [
    "C36_sign",
    "C36_ranges",
    "C36_abs",
    "C36_abs_diff_unsigned",
    "C36_abs_diff_signed",
    "C36_abs_diff_signed_total_refuted",
    "C36_float",
    "C36_float_nan_refuted",
    "C36_float_signs",
    "C36_float_abs_f64"
   ],
   "note": ""
  },
  {
   "property": "C37",
   "status": "proved",
   "theorems": [
    "C37_int_to_int",
    "C37_default_methods",
    "C37_float_to_int",
    "C37_float_to_int_special",
    "C37_int_to_float",
    "C37_int_to_float_exact",
    "C37_roundtrip",
    "C37_roundtrip_refuted"
   ],
   "note": ""
  },
  {
   "property": "C38",
   "status": "proved",
   "theorems": [
    "C38_abs_diff_macro",
    "C38_relative_macro",
    "C38_assertions",
    "C38_abs_diff_eq",
    "C38_relative_eq",
    "C38_symmetric_f64",
    "C38_reflexive_f64",
    "C38_infinity_f64",
    "C38_abs_diff_reflexive_refuted"
   ],
   "note": ""
  },
  {
   "property": "C39",
   "status": "proved",
   "theorems": [
    "C39_step",
    "C39_embedded_step",
    "C39_needs_tableau",
    "C39_constant"
   ],
   "note": ""
  },
  {
   "property": "C40",
   "status": "proved",
   "theorems": [
    "C40_order",
    "C40_embedded_order",
    "C40_exact",
    "C40_embedded_exact",
    "C40_quadrature",
    "C40_linear",
    "C40_ralston4_refuted",
    "C40_ralston4_order_refuted",
    "C40_ralston4_digit",
    "C40_cash_karp_refuted"
   ],
   "note": ""
  },
  {
   "property": "C41",
   "status": "proved",
   "theorems": [
    "C41_fixed_grid",
    "C41_panics",
    "C41_end_f64_refuted"
   ],
   "note": ""
  },
  {
   "property": "C42",
   "status": "proved",
   "theorems": [
    "C42_fixed",
    "C42_adaptive",
    "C42_shipped_nodes"
   ],
   "note": ""
  },
  {
   "property": "C43",
   "status": "proved",
   "theorems": [
    "C43_adaptive",
    "C43_err",
    "C43_step_factor",
    "C43_step_growth",
    "C43_tolerances"
   ],
   "note": ""
  },
  {
   "property": "C44",
   "status": "proved",
   "theorems": [
    "C44_first_component",
    "C44_unbounded_error"
   ],
   "note": ""
  },
  {
   "property": "C45",
   "status": "proved",
   "theorems": [
    "C45_nonterminating"
   ],
   "note": ""
  },
  {
   "property": "C46",
   "status": "proved",
   "theorems": [
    "C46_adams_bashforth",
    "C46_increasing_refuted",
    "C46_new"
   ],
   "note": ""
  },
  {
   "property": "C47",
   "status": "proved",
   "theorems": [
    "C47_bdf_is_adams_bashforth",
    "C47_bdf_relation_refuted"
   ],
   "note": ""
  },
  {
   "property": "C48",
   "status": "proved",
   "theorems": [
    "C48_run",
    "C48_regular",
    "C48_dominant",
    "C48_residual",
    "C48_at_root",
    "C48_no_iterations",
    "C48_affine",
    "C48_local",
    "C48_quadratic"
   ],
   "note": ""
  },
  {
   "property": "C49",
   "status": "proved",
   "theorems": [
    "C49_step",
    "C49_linear",
    "C49_solve",
    "C49_stable",
    "C49_nonlinear_refuted"
   ],
   "note": ""
  },
  {
   "property": "C50",
   "status": "proved",
   "theorems": [
    "C50_new",
    "C50_run",
    "C50_descent",
    "C50_terminates",
    "C50_rate",
    "C50_stationary",
    "C50_convex",
    "C50_sigma_one_refuted"
   ],
   "note": ""
  },
  {
   "property": "C51",
   "status": "proved",
   "theorems": [
    "C51_run",
    "C51_descent",
    "C51_quadratic",
    "C51_local",
    "C51_terminates",
    "C51_negative_sigma_refuted",
    "C51_stuck_refuted"
   ],
   "note": ""
  },
  {
   "property": "C52",
   "status": "proved",
   "theorems": [
    "C52_run",
    "C52_orthogonal",
    "C52_solves",
    "C52_optimal",
    "C52_rate",
    "C52_start_at_solution_f64_refuted",
    "C52_zero_eps_f64_refuted"
   ],
   "note": ""
  },
  {
   "property": "C53",
   "status": "proved",
   "theorems": [
    "C53_lm_run",
    "C53_lm_one_unknown",
    "C53_lm_terminates",
    "C53_lm_stationary",
    "C53_lm_non_square_refuted",
    "C53_gn_run",
    "C53_gn_square",
    "C53_gn_one_unknown",
    "C53_gn_local",
    "C53_gn_linear"
   ],
   "note": ""
  },
  {
   "property": "C54",
   "status": "proved",
   "theorems": [
    "C54_factorial",
    "C54_factorial_overflow",
    "C54_factorial_unchecked",
    "C54_binom",
    "C54_binom_panics",
    "C54_choose",
    "C54_binom_unchecked_refuted"
   ],
   "note": "Both overflow-checked and wrapping builds are covered."
  },
  {
   "property": "C55",
   "status": "proved",
   "theorems": [
    "C55_new",
    "C55_pmf",
    "C55_moments",
    "C55_cdf",
    "C55_cdf_zero_refuted",
    "C55_nan_refuted"
   ],
   "note": "Exact real arithmetic; rounding is not modelled. The claim at x=0 is shown false (C55_cdf_zero_refuted)."
  },
  {
   "property": "C56",
   "status": "proved",
   "theorems": [
    "C56_pmf",
    "C56_moments",
    "C56_cdf",
    "C56_cdf_law",
    "C56_cdf_negative_refuted",
    "C56_cdf_overflow",
    "C56_large_n",
    "C56_new_refuted"
   ],
   "note": "Exact real arithmetic; rounding is not modelled. Behaviour outside the stated domain is shown by the _refuted, _overflow and _large_n theorems."
  },
  {
   "property": "C57",
   "status": "proved",
   "theorems": [
    "C57_new",
    "C57_cdf",
    "C57_quantile",
    "C57_moments"
   ],
   "note": "Exact real arithmetic; rounding is not modelled."
  },
  {
   "property": "C58",
   "status": "proved",
   "theorems": [
    "C58_new",
    "C58_cdf",
    "C58_quantile",
    "C58_memoryless",
    "C58_random",
    "C58_moments",
    "C58_from_data",
    "C58_from_data_empty_refuted"
   ],
   "note": "Exact real arithmetic; rounding is not modelled. random is a function of the uniform number drawn."
  },
  {
   "property": "C59",
   "status": "proved",
   "theorems": [
    "C59_new",
    "C59_cdf",
    "C59_symmetry",
    "C59_moments",
    "C59_skewness",
    "C59_zero_width_refuted"
   ],
   "note": "Exact real arithmetic; rounding is not modelled."
  },
  {
   "property": "C60",
   "status": "proved",
   "theorems": [
    "C60_new",
    "C60_pdf",
    "C60_pdf_symmetry",
    "C60_moments",
    "C60_entropy_refuted",
    "C60_cdf",
    "C60_cdf_implementation",
    "C60_median",
    "C60_cdf_accuracy",
    "C60_quantile",
    "C60_quantile_accuracy",
    "C60_random",
    "C60_random_polar",
    "C60_random_nan_refuted"
   ],
   "note": "Exact real arithmetic. Theorems about distribution functions and moments take the special functions (gamma, erf, ...) as parameters assumed exact in a hypothesis; an instance meeting the hypotheses is exhibited. Theorems over impl_special speak of the crate's own implementations."
  },
  {
   "property": "C61",
   "status": "proved",
   "theorems": [
    "C61_from_data",
    "C61_pairwise",
    "C61_permutation",
    "C61_affine"
   ],
   "note": "Exact real arithmetic; rounding is not modelled."
  },
  {
   "property": "C62",
   "status": "proved",
   "theorems": [
    "C62_chi_cdf_refuted",
    "C62_chi_cdf_negative_refuted",
    "C62_beta_pdf_refuted",
    "C62_gamma_lr_inv_refuted",
    "C62_ln_gamma_refuted"
   ],
   "note": "The property is a list of defects; each theorem is the corresponding counterexample, mostly for all inputs of the kind."
  },
  {
   "property": "C63",
   "status": "proved",
   "theorems": [
    "C63_chi_test",
    "C63_pearson",
    "C63_g_test",
    "C63_g_stat",
    "C63_one_column_refuted",
    "C63_p_value",
    "C63_g_p_value",
    "C63_t_one_sample",
    "C63_t_equal_variance",
    "C63_t_p_value_refuted",
    "C63_t_df_refuted",
    "C63_welch"
   ],
   "note": "Exact real arithmetic. Theorems about distribution functions and moments take the special functions (gamma, erf, ...) as parameters assumed exact in a hypothesis; an instance meeting the hypotheses is exhibited. Theorems over impl_special speak of the crate's own implementations."
  },
  {
   "property": "C64",
   "status": "proved",
   "theorems": [
    "C64_erf_total",
    "C64_erf_odd",
    "C64_erf_values",
    "C64_erfc",
    "C64_erf_accuracy",
    "C64_erfc_accuracy",
    "C64_erfinv",
    "C64_erfcinv",
    "C64_erfinv_accuracy",
    "C64_erfcinv_accuracy",
    "C64_erfinv_f32",
    "C64_erfinv_f32_refuted",
    "C64_erfinv_f32_tail"
   ],
   "note": "Exact real arithmetic with the crate's coefficient tables. Accuracy of erf, erfc, erfinv and erfcinv is proved against the error function defined as an integral."
  },
  {
   "property": "C65",
   "status": "proved",
   "theorems": [
    "C65_total",
    "C65_recurrence",
    "C65_accuracy",
    "C65_digamma_exists"
   ],
   "note": "Exact real arithmetic with the crate's coefficients; the accuracy bound is that of the truncated expansion, rounding is not included."
  },
  {
   "property": "C66",
   "status": "proved",
   "theorems": [
    "C66_arcsin_arccos",
    "C66_arcsec_arccsc",
    "C66_arctan",
    "C66_arccot",
    "C66_arsinh",
    "C66_arcosh",
    "C66_artanh_arcoth",
    "C66_arsech_arcsch",
    "C66_pow",
    "C66_pow_zero_f64_refuted"
   ],
   "note": ""
  },
  {
   "property": "C67",
   "status": "proved",
   "theorems": [
    "C67_arcsin",
    "C67_arccos",
    "C67_arctan",
    "C67_arccot",
    "C67_arccot_zero_refuted",
    "C67_arcsec_arccsc",
    "C67_coth_csch",
    "C67_arsinh",
    "C67_arcosh",
    "C67_artanh",
    "C67_arcoth",
    "C67_arsech",
    "C67_arcsch"
   ],
   "note": ""
  },
  {
   "property": "C68",
   "status": "proved",
   "theorems": [
    "C68_square",
    "C68_upper_triangular",
    "C68_column",
    "C68_non_square_refuted"
   ],
   "note": ""
  },
  {
   "property": "C69",
   "status": "proved",
   "theorems": [
    "C69_new",
    "C69_pmf",
    "C69_moments",
    "C69_cdf",
    "C69_cdf_accuracy",
    "C69_cdf_overflow"
   ],
   "note": "Exact real arithmetic. Theorems about distribution functions and moments take the special functions (gamma, erf, ...) as parameters assumed exact in a hypothesis; an instance meeting the hypotheses is exhibited. Theorems over impl_special speak of the crate's own implementations."
  },
  {
   "property": "C70",
   "status": "proved",
   "theorems": [
    "C70_new",
    "C70_pdf",
    "C70_moments",
    "C70_entropy",
    "C70_cdf",
    "C70_cdf_accuracy",
    "C70_median",
    "C70_quantile_accuracy",
    "C70_pdf_zero_nan_refuted"
   ],
   "note": "Exact real arithmetic. Theorems about distribution functions and moments take the special functions (gamma, erf, ...) as parameters assumed exact in a hypothesis; an instance meeting the hypotheses is exhibited. Theorems over impl_special speak of the crate's own implementations."
  },
  {
   "property": "C71",
   "status": "proved",
   "theorems": [
    "C71_new",
    "C71_moments",
    "C71_pdf_panics",
    "C71_cdf",
    "C71_pdf_accuracy",
    "C71_cdf_accuracy"
   ],
   "note": "Exact real arithmetic. Theorems about distribution functions and moments take the special functions (gamma, erf, ...) as parameters assumed exact in a hypothesis; an instance meeting the hypotheses is exhibited. Theorems over impl_special speak of the crate's own implementations."
  },
  {
   "property": "C72",
   "status": "proved",
   "theorems": [
    "C72_new",
    "C72_law",
    "C72_pdf_accuracy",
    "C72_cdf_accuracy",
    "C72_is_gamma",
    "C72_quantile_two",
    "C72_median_refuted",
    "C72_entropy_refuted"
   ],
   "note": "Exact real arithmetic. Theorems about distribution functions and moments take the special functions (gamma, erf, ...) as parameters assumed exact in a hypothesis; an instance meeting the hypotheses is exhibited. Theorems over impl_special speak of the crate's own implementations."
  },
  {
   "property": "C73",
   "status": "proved",
   "theorems": [
    "C73_new",
    "C73_moments",
    "C73_support",
    "C73_cdf_low",
    "C73_cdf_high",
    "C73_pdf_accuracy",
    "C73_cdf_accuracy",
    "C73_cdf_ends"
   ],
   "note": "Exact real arithmetic. Theorems about distribution functions and moments take the special functions (gamma, erf, ...) as parameters assumed exact in a hypothesis; an instance meeting the hypotheses is exhibited. Theorems over impl_special speak of the crate's own implementations."
  },
  {
   "property": "C74",
   "status": "proved",
   "theorems": [
    "C74_new",
    "C74_symmetry",
    "C74_cdf",
    "C74_moments",
    "C74_no_moments",
    "C74_is_cdf",
    "C74_pdf_accuracy",
    "C74_cdf_accuracy",
    "C74_cauchy",
    "C74_moments_domain",
    "C74_entropy_refuted",
    "C74_zero_refuted",
    "C74_cdf_two_refuted"
   ],
   "note": "Exact real arithmetic. Theorems about distribution functions and moments take the special functions (gamma, erf, ...) as parameters assumed exact in a hypothesis; an instance meeting the hypotheses is exhibited. Theorems over impl_special speak of the crate's own implementations."
  },
  {
   "property": "C75",
   "status": "proved",
   "theorems": [
    "C75_gamma_domain",
    "C75_reflection",
    "C75_gamma_exists",
    "C75_gamma_accuracy",
    "C75_ln_gamma_accuracy",
    "C75_incomplete_total",
    "C75_complement",
    "C75_upper_bound",
    "C75_lower_accuracy",
    "C75_upper_accuracy",
    "C75_incomplete_accuracy",
    "C75_power_series",
    "C75_inverse_steps",
    "C75_inverse"
   ],
   "note": "Exact real arithmetic with the crate's coefficient tables; the accuracy theorems bound the approximation error of the Lanczos formula, the series and the continued fraction, rounding is not included."
  },
  {
   "property": "C76",
   "status": "proved",
   "theorems": [
    "C76_beta",
    "C76_beta_identity",
    "C76_beta_accuracy",
    "C76_reflection",
    "C76_domain",
    "C76_incomplete_low",
    "C76_incomplete_high",
    "C76_unregularised_low",
    "C76_unregularised_high",
    "C76_regularised_accuracy",
    "C76_integral_exists"
   ],
   "note": "Exact real arithmetic; the accuracy theorems bound the approximation error, rounding is not included."
  },
  {
   "property": "C77",
   "status": "proved",
   "theorems": [
    "C77_total",
    "C77_partial_sum",
    "C77_accuracy",
    "C77_early_stop_refuted",
    "C77_symmetric",
    "C77_values",
    "C77_divergent_refuted",
    "C77_negative_accuracy",
    "C77_at_one"
   ],
   "note": "Exact real arithmetic; truncation error only. The branches 1/2<z<1 and z<-1 have no general accuracy theorem (z<-1 is covered for the Student t arguments in C74)."
  },
  {
   "property": "C78",
   "status": "proved",
   "theorems": [
    "C78_bidiagonal",
    "C78_returns",
    "C78_panics_refuted",
    "C78_tall_refuted"
   ],
   "note": "Exact real arithmetic; rounding is not modelled. The refuted companions give inputs outside the stated domain on which the code panics or returns something else."
  },
  {
   "property": "C79",
   "status": "proved",
   "theorems": [
    "C79_singular_values",
    "C79_exact_iff",
    "C79_returns",
    "C79_two_by_two",
    "C79_diagonal",
    "C79_order_refuted",
    "C79_panics_refuted"
   ],
   "note": "Exact real arithmetic; rounding is not modelled. The refuted companions give inputs outside the stated domain on which the code panics or returns something else."
  },
  {
   "property": "C80",
   "status": "proved",
   "theorems": [
    "C80_terminates",
    "C80_pass",
    "C80_trace",
    "C80_one",
    "C80_two",
    "C80_symmetric_refuted",
    "C80_three_refuted",
    "C80_panics_refuted"
   ],
   "note": "Exact real arithmetic; rounding is not modelled. The refuted companions give inputs outside the stated domain on which the code panics or returns something else."
  },
  {
   "property": "C81",
   "status": "proved",
   "theorems": [
    "C81_returns",
    "C81_eigenvector",
    "C81_two_lower",
    "C81_zero_refuted",
    "C81_symmetric_refuted"
   ],
   "note": "Exact real arithmetic; rounding is not modelled. The refuted companions give inputs outside the stated domain on which the code panics or returns something else."
  },
  {
   "property": "C82",
   "status": "proved",
   "theorems": [
    "C82_gam",
    "C82_trace",
    "C82_dot",
    "C82_mul_vec",
    "C82_mul",
    "C82_eval",
    "C82_mean"
   ],
   "note": "About f64 itself: IEEE-754 binary64 with rounding to nearest even. The underflow term is explicit; overflow is excluded by the hypothesis that the result is finite."
  },
  {
   "property": "C83",
   "status": "proved",
   "theorems": [
    "C83_forward",
    "C83_backward",
    "C83_lu",
    "C83_solve",
    "C83_solve_matrix",
    "C83_inverse",
    "C83_cholesky"
   ],
   "note": "About f64 itself. The bounds are relative to |L||U||x|, the standard form of backward error analysis; the growth of L and U is not bounded in terms of A, since dec_lu does not choose the largest pivot in all cases."
  },
  {
   "property": "C84",
   "status": "proved",
   "theorems": [
    "C84_euler_same",
    "C84_euler_rhs",
    "C84_euler_continuous",
    "C84_euler_jacobian",
    "C84_euler_balance",
    "C84_euler_conserved",
    "C84_defaults",
    "C84_vdp_jacobian",
    "C84_vdp_balance",
    "C84_vdp_documented_iff",
    "C84_vdp_documented_refuted",
    "C84_short_panics"
   ],
   "note": "Solutions and derivatives over the reals; the equality of both forms and the panics hold for every element type."
  },
  {
   "property": "C85",
   "status": "proved",
   "theorems": [
    "C85_shipped",
    "C85_order_2",
    "C85_order_4",
    "C85_order_5",
    "C85_ralston4_refuted"
   ],
   "note": ""
  },
  {
   "property": "C86",
   "status": "proved",
   "theorems": [
    "C86_adams_bashforth",
    "C86_bdf",
    "C86_start_error",
    "C86_order_refuted"
   ],
   "note": ""
  },
  {
   "property": "C87",
   "status": "proved",
   "theorems": [
    "C87_polynomial",
    "C87_polynomial_inj",
    "C87_polynomial_empty",
    "C87_zero_polynomial_refuted",
    "C87_matrix",
    "C87_matrix_inj",
    "C87_matrix_inj_refuted",
    "C87_complex"
   ],
   "note": ""
  },
  {
   "property": "C88",
   "status": "proved",
   "theorems": [
    "C88_random_matrix",
    "C88_random_vectors",
    "C88_independent_refuted",
    "C88_random_sequence"
   ],
   "note": ""
  },
  {
   "property": "C89",
   "status": "proved",
   "theorems": [
    "C89_into_iter",
    "C89_iter_mut",
    "C89_from_vector",
    "C89_sign_abs",
    "C89_compare",
    "C89_compare_shape",
    "C89_compare_row",
    "C89_compare_row_refuted",
    "C89_max"
   ],
   "note": ""
  },
  {
   "property": "C90",
   "status": "proved",
   "theorems": [
    "C90_accuracy",
    "C90_stall",
    "C90_converges_refuted",
    "C90_step_panics",
    "C90_systems_refuted",
    "C90_systems_f64_refuted"
   ],
   "note": ""
  },
  {
   "property": "C91",
   "status": "proved",
   "theorems": [
    "C91_grid",
    "C91_last",
    "C91_returns",
    "C91_within_refuted",
    "C91_count_refuted"
   ],
   "note": ""
  },
  {
   "property": "C92",
   "status": "proved",
   "theorems": [
    "C92_terminates",
    "C92_bounded"
   ],
   "note": ""
  },
  {
   "property": "C93",
   "status": "proved",
   "theorems": [
    "C93_accuracy",
    "C93_converges",
    "C93_order_5"
   ],
   "note": ""
  },
  {
   "property": "C94",
   "status": "proved",
   "theorems": [
    "C94_gradient",
    "C94_newton",
    "C94_gradient_nan_refuted"
   ],
   "note": ""
  },
  {
   "property": "C95",
   "status": "proved",
   "theorems": [
    "C95_multistep_returns",
    "C95_absorbed_step_refuted",
    "C95_adaptive_nan_refuted"
   ],
   "note": ""
  },
  {
   "property": "C96",
   "status": "proved",
   "theorems": [
    "C96_digamma_returns",
    "C96_digamma_refuted",
    "C96_gamma_refuted",
    "C96_gamma_cdf_refuted",
    "C96_beta_refuted"
   ],
   "note": ""
  },
  {
   "property": "C97",
   "status": "proved",
   "theorems": [
    "C97_euler"
   ],
   "note": ""
  },
  {
   "property": "C98",
   "status": "proved",
   "theorems": [
    "C98_tableaux",
    "C98_step",
    "C98_run",
    "C98_shipped"
   ],
   "note": ""
  },
  {
   "property": "C99",
   "status": "proved",
   "theorems": [
    "C99_total",
    "C99_local_order"
   ],
   "note": ""
  },
  {
   "property": "C100",
   "status": "proved",
   "theorems": [
    "C100_qr",
    "C100_columns",
    "C100_overflow_refuted",
    "C100_underflow_refuted"
   ],
   "note": ""
  },
  {
   "property": "C101",
   "status": "proved",
   "theorems": [
    "C101_neg_conj",
    "C101_add",
    "C101_sub",
    "C101_mul",
    "C101_mul_componentwise_refuted",
    "C101_div",
    "C101_div_overflow_refuted",
    "C101_abs",
    "C101_abs_overflow_refuted",
    "C101_exp"
   ],
   "note": ""
  },
  {
   "property": "C102",
   "status": "proved",
   "theorems": [
    "C102_digamma",
    "C102_pole"
   ],
   "note": ""
  },
  {
   "property": "C103",
   "status": "proved",
   "theorems": [
    "C103_about",
    "C103_from_data",
    "C103_constant_refuted"
   ],
   "note": ""
  },
  {
   "property": "C104",
   "status": "proved",
   "theorems": [
    "C104_uniform_cdf",
    "C104_uniform_cdf_monotone",
    "C104_uniform_pdf",
    "C104_uniform_quantile",
    "C104_uniform_quantile_refuted",
    "C104_uniform_overflow_refuted",
    "C104_exponential_pdf",
    "C104_exponential_cdf",
    "C104_exponential_cdf_refuted",
    "C104_exponential_quantile",
    "C104_exponential_quantile_refuted"
   ],
   "note": ""
  },
  {
   "property": "C105",
   "status": "proved",
   "theorems": [
    "C105_solve",
    "C105_solve_matrix",
    "C105_inverse",
    "C105_det1",
    "C105_det2",
    "C105_det2_refuted",
    "C105_det"
   ],
   "note": ""
  },
  {
   "property": "C106",
   "status": "proved",
   "theorems": [
    "C106_run",
    "C106_returns",
    "C106_total",
    "C106_bdf"
   ],
   "note": ""
  },
  {
   "property": "C107",
   "status": "proved",
   "theorems": [
    "C107_answers",
    "C107_gives_up",
    "C107_tableaux",
    "C107_run",
    "C107_shipped",
    "C107_time_advances_refuted"
   ],
   "note": ""
  },
  {
   "property": "C108",
   "status": "proved",
   "theorems": [
    "C108_total",
    "C108_shipped",
    "C108_local_rate",
    "C108_local_rate_5"
   ],
   "note": ""
  },
  {
   "property": "C109",
   "status": "proved",
   "theorems": [
    "C109_int_operate",
    "C109_int_associative",
    "C109_int_inverse",
    "C109_int_wrapping",
    "C109_int_associative_refuted",
    "C109_f64_laws",
    "C109_f64_associative_exact",
    "C109_f64_associative_error",
    "C109_f64_laws_refuted",
    "C109_poly",
    "C109_complex"
   ],
   "note": ""
  },
  {
   "property": "C110",
   "status": "proved",
   "theorems": [
    "C110_gam",
    "C110_trace",
    "C110_dot",
    "C110_mul_vec",
    "C110_mul",
    "C110_eval",
    "C110_mean",
    "C110_forward",
    "C110_backward",
    "C110_lu",
    "C110_solve",
    "C110_solve_matrix",
    "C110_inverse",
    "C110_cholesky",
    "C110_solve_forward",
    "C110_solve_forward_matrix",
    "C110_inverse_forward",
    "C110_det1",
    "C110_det2",
    "C110_det2_refuted",
    "C110_det"
   ],
   "note": ""
  },
  {
   "property": "C111",
   "status": "proved",
   "theorems": [
    "C111_newton",
    "C111_bound",
    "C111_length",
    "C111_tolerance_refuted"
   ],
   "note": ""
  },
  {
   "property": "C112",
   "status": "proved",
   "theorems": [
    "C112_gradient",
    "C112_newton",
    "C112_newton_nan_refuted"
   ],
   "note": ""
  },
  {
   "property": "C113",
   "status": "proved",
   "theorems": [
    "C113_implicit_euler"
   ],
   "note": ""
  },
  {
   "property": "C114",
   "status": "proved",
   "theorems": [
    "C114_norm",
    "C114_finite",
    "C114_ieee",
    "C114_range_refuted"
   ],
   "note": ""
  },
  {
   "property": "C115",
   "status": "proved",
   "theorems": [
    "C115_gamma",
    "C115_beta",
    "C115_overflow_refuted",
    "C115_zero"
   ],
   "note": ""
  },
  {
   "property": "C116",
   "status": "proved",
   "theorems": [
    "C116_gamma_pdf",
    "C116_gamma_pdf_refuted",
    "C116_chi_pdf",
    "C116_beta_pdf",
    "C116_t_pdf"
   ],
   "note": ""
  },
  {
   "property": "C117",
   "status": "proved",
   "theorems": [
    "C117_binomial_pmf",
    "C117_binomial_cdf",
    "C117_poisson_pmf"
   ],
   "note": ""
  },
  {
   "property": "C118",
   "status": "proved",
   "theorems": [
    "C118_standard_pdf",
    "C118_normal_pdf",
    "C118_normal_pdf_refuted",
    "C118_log_normal_pdf",
    "C118_raised_pdf",
    "C118_raised_out"
   ],
   "note": ""
  },
  {
   "property": "C119",
   "status": "proved",
   "theorems": [
    "C119_add",
    "C119_sub",
    "C119_mul",
    "C119_from_roots",
    "C119_root_coef",
    "C119_div",
    "C119_differentiate",
    "C119_integrate"
   ],
   "note": ""
  },
  {
   "property": "C120",
   "status": "proved",
   "theorems": [
    "C120_sin",
    "C120_cos",
    "C120_tan",
    "C120_sinh",
    "C120_cosh",
    "C120_sec",
    "C120_csc",
    "C120_tanh",
    "C120_coth",
    "C120_sech",
    "C120_cot",
    "C120_csch",
    "C120_ln",
    "C120_spec"
   ],
   "note": ""
  },
  {
   "property": "C121",
   "status": "proved",
   "theorems": [
    "C121_ln_gamma",
    "C121_log_factorial",
    "C121_scale"
   ],
   "note": ""
  },
  {
   "property": "C122",
   "status": "proved",
   "theorems": [
    "C122_one_sample",
    "C122_welch",
    "C122_pooled",
    "C122_constant_refuted"
   ],
   "note": ""
  }
 ]
}