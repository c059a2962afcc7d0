{
 "claims": [
  {
   "property": "C01",
   "status": "proved",
   "theorems": [
    "C01_scalar",
    "C01_vector",
    "C01_array"
   ],
   "note": ""
  },
  {
   "property": "C02",
   "status": "proved",
   "theorems": [
    "C02_C03_scalar",
    "C02_C03_vector",
    "C02_C03_array"
   ],
   "note": ""
  },
  {
   "property": "C03",
   "status": "proved",
   "theorems": [
    "C02_C03_scalar",
    "C02_C03_vector",
    "C02_C03_array"
   ],
   "note": ""
  },
  {
   "property": "C04",
   "status": "proved",
   "theorems": [
    "C04_scalar",
    "C04_vector",
    "C04_array"
   ],
   "note": ""
  },
  {
   "property": "C05",
   "status": "proved",
   "theorems": [
    "C05_vector",
    "C05_scalar",
    "C05_array"
   ],
   "note": ""
  },
  {
   "property": "C06",
   "status": "proved",
   "theorems": [
    "C06_scalar",
    "C06_vector",
    "C06_array",
    "C06_default_in_bounds_refuted"
   ],
   "note": ""
  },
  {
   "property": "C07",
   "status": "proved",
   "theorems": [
    "C07_vector_increasing",
    "C07_vector_onto",
    "C07_array_increasing",
    "C07_array_onto",
    "C07_scalar_increasing",
    "C07_scalar_onto"
   ],
   "note": ""
  },
  {
   "property": "C08",
   "status": "proved",
   "theorems": [
    "C08_vector",
    "C08_array",
    "C08_scalar",
    "C08_map_is_set_get"
   ],
   "note": ""
  },
  {
   "property": "C09",
   "status": "proved",
   "theorems": [
    "C09_vector",
    "C09_array",
    "C09_scalar_no_check"
   ],
   "note": ""
  },
  {
   "property": "C10",
   "status": "proved",
   "theorems": [
    "C10_vector",
    "C10_array",
    "C10_scalar",
    "C10_accepts"
   ],
   "note": ""
  },
  {
   "property": "C11",
   "status": "proved",
   "theorems": [
    "C11_sizes"
   ],
   "note": ""
  },
  {
   "property": "C12",
   "status": "proved",
   "theorems": [
    "C12_duplicate_push"
   ],
   "note": ""
  },
  {
   "property": "C13",
   "status": "proved",
   "theorems": [
    "C13_free_roundtrip"
   ],
   "note": ""
  },
  {
   "property": "C14",
   "status": "proved",
   "theorems": [
    "C14_value_roundtrip"
   ],
   "note": ""
  },
  {
   "property": "C15",
   "status": "proved",
   "theorems": [
    "C15_vector_roundtrip",
    "C15_value_roundtrip"
   ],
   "note": ""
  },
  {
   "property": "C16",
   "status": "proved",
   "theorems": [
    "C16_index_ranges"
   ],
   "note": ""
  },
  {
   "property": "C17",
   "status": "proved",
   "theorems": [
    "C17_wrong_size"
   ],
   "note": ""
  },
  {
   "property": "C18",
   "status": "proved",
   "theorems": [
    "C18_members_independent",
    "C18_member_update",
    "C18_assignment"
   ],
   "note": ""
  },
  {
   "property": "C19",
   "status": "proved",
   "theorems": [
    "C19_nested_growth"
   ],
   "note": ""
  },
  {
   "property": "C20",
   "status": "proved",
   "theorems": [
    "C20_symmetric",
    "C20_enumerates",
    "C20_bijection"
   ],
   "note": ""
  },
  {
   "property": "C21",
   "status": "proved",
   "theorems": [
    "C21_rejects_iff",
    "C21_unvectorize",
    "C21_vectorize_roundtrip",
    "C21_vectorize_rejects",
    "C21_size_formula"
   ],
   "note": ""
  },
  {
   "property": "C22",
   "status": "proved",
   "theorems": [
    "C22_unvectorize_symmetric",
    "C22_roundtrip",
    "C22_rejects"
   ],
   "note": ""
  },
  {
   "property": "C23",
   "status": "proved",
   "theorems": [
    "C23_vjp_is_adjoint",
    "C23_jvp_is_derivative"
   ],
   "note": ""
  },
  {
   "property": "C24",
   "status": "proved",
   "theorems": [
    "C24_pack_unpack",
    "C24_unpack_formula"
   ],
   "note": ""
  },
  {
   "property": "C25",
   "status": "proved",
   "theorems": [
    "C25_unpack_pack"
   ],
   "note": ""
  },
  {
   "property": "C26",
   "status": "proved",
   "theorems": [
    "C26_set_free_valid",
    "C26_wrong_length",
    "C26_set",
    "C26_vector_roundtrip",
    "C26_default",
    "C26_negative_bound",
    "C26_given_value"
   ],
   "note": ""
  },
  {
   "property": "C27",
   "status": "proved",
   "theorems": [
    "C27_get_free_iff_posdef"
   ],
   "note": ""
  },
  {
   "property": "C28",
   "status": "proved",
   "theorems": [
    "C28_vector_free",
    "C28_vector_vector",
    "C28_vector_value_free",
    "C28_vector_value_vector",
    "C28_vector_wrong_length",
    "C28_vector_empty",
    "C28_array_free",
    "C28_array_vector",
    "C28_array_value_free",
    "C28_array_value_vector",
    "C28_array_wrong_length",
    "C28_blocks_cover"
   ],
   "note": ""
  },
  {
   "property": "C29",
   "status": "proved",
   "theorems": [
    "C29_vector_set",
    "C29_array_set",
    "C29_wrong_length_accepted_refuted"
   ],
   "note": ""
  },
  {
   "property": "C30",
   "status": "proved",
   "theorems": [
    "C30_matrix",
    "C30_vector",
    "C30_array"
   ],
   "note": ""
  },
  {
   "property": "C31",
   "status": "proved",
   "theorems": [
    "C31_C32_set_free",
    "C31_wrong_length"
   ],
   "note": ""
  },
  {
   "property": "C32",
   "status": "proved",
   "theorems": [
    "C31_C32_set_free",
    "C32_unconstrain_constrain",
    "C32_constrain_unconstrain",
    "C32_value_roundtrip",
    "C32_set_vector",
    "C32_get_vector"
   ],
   "note": ""
  },
  {
   "property": "C33",
   "status": "proved",
   "theorems": [
    "C33_C34_from_moment",
    "C33_jacobian"
   ],
   "note": ""
  },
  {
   "property": "C34",
   "status": "proved",
   "theorems": [
    "C33_C34_from_moment",
    "C34_hessian"
   ],
   "note": ""
  },
  {
   "property": "C35",
   "status": "proved",
   "theorems": [
    "C35_basis",
    "C35_init_rejects",
    "C35_init_accepts",
    "C35_set_free",
    "C35_projection",
    "C35_derivatives",
    "C35_wrong_size",
    "C35_set_vector",
    "C35_default"
   ],
   "note": ""
  },
  {
   "property": "C36",
   "status": "proved",
   "theorems": [
    "C36_offset",
    "C36_layout"
   ],
   "note": ""
  },
  {
   "property": "C37",
   "status": "proved",
   "theorems": [
    "C37_derivatives"
   ],
   "note": ""
  },
  {
   "property": "C38",
   "status": "proved",
   "theorems": [
    "C38_convert_hessian"
   ],
   "note": ""
  },
  {
   "property": "C39",
   "status": "proved",
   "theorems": [
    "C39_sub_matrix",
    "C39_injective",
    "C39_rejects",
    "C39_sub_hessian"
   ],
   "note": ""
  },
  {
   "property": "C40",
   "status": "proved",
   "theorems": [
    "C40_csr",
    "C40_coo",
    "C40_json",
    "C40_json_rejects"
   ],
   "note": ""
  },
  {
   "property": "C41",
   "status": "proved",
   "theorems": [
    "C41_index_param"
   ],
   "note": ""
  },
  {
   "property": "C42",
   "status": "proved",
   "theorems": [
    "C42_values"
   ],
   "note": ""
  },
  {
   "property": "C43",
   "status": "proved",
   "theorems": [
    "C43_derivative_calls",
    "C43_raise_leaves_tracing"
   ],
   "note": ""
  },
  {
   "property": "C44",
   "status": "proved",
   "theorems": [
    "C44_no_preconditioner",
    "C44_value",
    "C44_derivatives"
   ],
   "note": ""
  },
  {
   "property": "C45",
   "status": "proved",
   "theorems": [
    "C45_converter"
   ],
   "note": ""
  },
  {
   "property": "C46",
   "status": "proved",
   "theorems": [
    "C46_values",
    "C46_forms",
    "C46_derivative_calls",
    "C46_derivative_values",
    "C46_transpose"
   ],
   "note": ""
  },
  {
   "property": "C47",
   "status": "proved",
   "theorems": [
    "C47_history",
    "C47_raises",
    "C47_print_every_zero",
    "C47_verbose"
   ],
   "note": ""
  },
  {
   "property": "C48",
   "status": "proved",
   "theorems": [
    "C48_derivative_array"
   ],
   "note": ""
  },
  {
   "property": "C49",
   "status": "proved",
   "theorems": [
    "C49_differentiate_terms",
    "C49_base_terms"
   ],
   "note": ""
  },
  {
   "property": "C50",
   "status": "proved",
   "theorems": [
    "C50_consolidate_value"
   ],
   "note": ""
  },
  {
   "property": "C51",
   "status": "proved",
   "theorems": [
    "C51_consolidate_pairs",
    "C51_three_leave_two_refuted",
    "C51_expansions_consolidated"
   ],
   "note": ""
  },
  {
   "property": "C52",
   "status": "proved",
   "theorems": [
    "C52_order_ok",
    "C52_order_zero",
    "C52_order_negative",
    "C52_constructor"
   ],
   "note": ""
  },
  {
   "property": "C53",
   "status": "proved",
   "theorems": [
    "C53_derivatives_of_optimum",
    "C53_range",
    "C53_functions",
    "C53_C54_set_order"
   ],
   "note": ""
  },
  {
   "property": "C54",
   "status": "proved",
   "theorems": [
    "C54_taylor_polynomial",
    "C54_range",
    "C54_remainder",
    "C54_linear_agrees",
    "C53_C54_set_order"
   ],
   "note": ""
  },
  {
   "property": "C55",
   "status": "proved",
   "theorems": [
    "C55_first_order",
    "C55_second_order_refuted"
   ],
   "note": ""
  },
  {
   "property": "C56",
   "status": "proved",
   "theorems": [
    "C56_hess0_ignored",
    "C56_input_not_free_refuted",
    "C56_linear_free_hyper_refuted"
   ],
   "note": ""
  },
  {
   "property": "C57",
   "status": "proved",
   "theorems": [
    "C57_linear",
    "C57_linear_constructor",
    "C57_linear_quadratic_exact",
    "C57_output_chain_rule",
    "C57_old_quadratic_exact"
   ],
   "note": ""
  },
  {
   "property": "C58",
   "status": "proved",
   "theorems": [
    "C58_inverse_square_root",
    "C58_not_clipped",
    "C58_rejects"
   ],
   "note": ""
  },
  {
   "property": "C59",
   "status": "proved",
   "theorems": [
    "C59_whitens",
    "C59_given_hessian",
    "C59_failure",
    "C59_needs_point_or_hessian"
   ],
   "note": ""
  },
  {
   "property": "C60",
   "status": "proved",
   "theorems": [
    "C60_C79_minimize",
    "C60_needs_preconditioner"
   ],
   "note": ""
  },
  {
   "property": "C61",
   "status": "proved",
   "theorems": [
    "C61_control_flow",
    "C61_C79_parameter",
    "C61_returns",
    "C61_exceptions",
    "C61_no_iterations",
    "C61_unbound"
   ],
   "note": ""
  },
  {
   "property": "C62",
   "status": "proved",
   "theorems": [
    "C62_split",
    "C62_sizes",
    "C62_partition"
   ],
   "note": ""
  },
  {
   "property": "C63",
   "status": "proved",
   "theorems": [
    "C63_partition",
    "C63_keeps_results",
    "C63_nonterminating"
   ],
   "note": ""
  },
  {
   "property": "C64",
   "status": "proved",
   "theorems": [
    "C64_masks",
    "C64_partition",
    "C64_rejects"
   ],
   "note": ""
  },
  {
   "property": "C65",
   "status": "proved",
   "theorems": [
    "C65_records",
    "C65_residual",
    "C65_exact",
    "C65_masks_of_get_masks",
    "C65_masks_of_recursive_split",
    "C65_bad_mask",
    "C65_bad_vector",
    "C65_initialize",
    "C65_new_solver"
   ],
   "note": ""
  },
  {
   "property": "C66",
   "status": "proved",
   "theorems": [
    "C66_normal",
    "C66_multivariate_normal",
    "C66_gamma",
    "C66_exponential",
    "C66_dirichlet",
    "C66_dirichlet_shapes"
   ],
   "note": "Expectations are over finitely supported distributions with the stated moments; integrals against the densities are proved for all the families in C114-C118."
  },
  {
   "property": "C67",
   "status": "proved",
   "theorems": [
    "C67_square",
    "C67_inverse"
   ],
   "note": ""
  },
  {
   "property": "C68",
   "status": "proved",
   "theorems": [
    "C68_beta_is_dirichlet",
    "C68_wishart_is_gamma",
    "C68_diagonal_normal",
    "C68_recursion",
    "C68_not_positive",
    "C68_wishart_not_positive"
   ],
   "note": ""
  },
  {
   "property": "C69",
   "status": "proved",
   "theorems": [
    "C69_moments",
    "C69_classes",
    "C69_moment_array_refuted",
    "C69_moment_array_e2_refuted"
   ],
   "note": ""
  },
  {
   "property": "C70",
   "status": "proved",
   "theorems": [
    "C70_from_normals",
    "C70_shapes",
    "C70_constant_shapes",
    "C70_from_constant",
    "C70_constructed"
   ],
   "note": ""
  },
  {
   "property": "C71",
   "status": "proved",
   "theorems": [
    "C71_simplex",
    "C71_rescaling",
    "C71_class"
   ],
   "note": ""
  },
  {
   "property": "C72",
   "status": "proved",
   "theorems": [
    "C72_polynomials",
    "C72_quadrature",
    "C72_shapes",
    "C72_log_logitnormal",
    "C72_logitnormal",
    "C72_dp_prior"
   ],
   "note": "Quadrature nodes and weights are arguments with an exactness hypothesis; numpy's hermgauss is not modelled."
  },
  {
   "property": "C73",
   "status": "proved",
   "theorems": [
    "C73_size",
    "C73_default"
   ],
   "note": ""
  },
  {
   "property": "C74",
   "status": "proved",
   "theorems": [
    "C74_mat_entry",
    "C74_vec_entry",
    "C74_mat_every",
    "C74_vec_every",
    "C74_mat_mul",
    "C74_mat_vec",
    "C74_mat_mul_ranks",
    "C74_mat_mul_low",
    "C74_mat_mul_inner",
    "C74_mat_mul_batch",
    "C74_mat_vec_inner",
    "C74_mat_vec_rank"
   ],
   "note": ""
  },
  {
   "property": "C75",
   "status": "proved",
   "theorems": [
    "C75_posterior_normal_equations",
    "C75_regression_normal_equations",
    "C75_posterior_minimises",
    "C75_regression_minimises"
   ],
   "note": ""
  },
  {
   "property": "C76",
   "status": "proved",
   "theorems": [
    "C76_draws",
    "C76_antisymmetric",
    "C76_increasing"
   ],
   "note": ""
  },
  {
   "property": "C77",
   "status": "proved",
   "theorems": [
    "C77_value",
    "C77_log_prob_refuted"
   ],
   "note": ""
  },
  {
   "property": "C78",
   "status": "proved",
   "theorems": [
    "C78_progress_messages"
   ],
   "note": ""
  },
  {
   "property": "C79",
   "status": "proved",
   "theorems": [
    "C60_C79_minimize",
    "C61_C79_parameter"
   ],
   "note": ""
  },
  {
   "property": "C80",
   "status": "proved",
   "theorems": [
    "C80_normal",
    "C80_gamma",
    "C80_dirichlet",
    "C80_multivariate_normal",
    "C80_wishart",
    "C80_normal_classes",
    "C80_gamma_class",
    "C80_dirichlet_class",
    "C80_wishart_class",
    "C80_multivariate_normal_class"
   ],
   "note": "Expectations are over finitely supported distributions with the stated moments; integrals against the densities are proved for all the families in C114-C118. Normalising constants are the textbook ones in terms of the log-gamma argument; that they normalise the densities is proved in C114-C118."
  },
  {
   "property": "C81",
   "status": "proved",
   "theorems": [
    "C81_bounds",
    "C81_uniform"
   ],
   "note": ""
  },
  {
   "property": "C82",
   "status": "proved",
   "theorems": [
    "C82_one_dimension",
    "C82_rescaling",
    "C82_expected_log_density",
    "C82_class"
   ],
   "note": "Expectations are over finitely supported distributions with the stated moments; integrals against the densities are proved for all the families in C114-C118."
  },
  {
   "property": "C83",
   "status": "proved",
   "theorems": [
    "C83_bound",
    "C83_multivariate_bound"
   ],
   "note": ""
  },
  {
   "property": "C84",
   "status": "proved",
   "theorems": [
    "C84_multivariate_normal",
    "C84_normal_rows"
   ],
   "note": "Expectations are over finitely supported distributions with the stated moments; integrals against the densities are proved for all the families in C114-C118."
  },
  {
   "property": "C85",
   "status": "proved",
   "theorems": [
    "C85_inverse_moment_refuted"
   ],
   "note": "The formula V^-1/(df-n-1) for the mean of the inverse is quoted from the literature, not derived; the theorem compares e_inv with it."
  },
  {
   "property": "C86",
   "status": "proved",
   "theorems": [
    "C86_value",
    "C86_expected_log_likelihood",
    "C86_distribution",
    "C86_mean",
    "C86_standard_draws",
    "C86_bounds",
    "C86_nonpositive",
    "C86_ranks"
   ],
   "note": ""
  },
  {
   "property": "C87",
   "status": "proved",
   "theorems": [
    "C87_entries",
    "C87_total",
    "C87_bounds",
    "C87_shapes"
   ],
   "note": ""
  },
  {
   "property": "C88",
   "status": "proved",
   "theorems": [
    "C88_converter_functions"
   ],
   "note": ""
  },
  {
   "property": "C89",
   "status": "proved",
   "theorems": [
    "C89_set_free_refines",
    "C89_set_vector_refines",
    "C89_get_free_refines",
    "C89_get_vector_refines",
    "C89_push_param_refines"
   ],
   "note": ""
  },
  {
   "property": "C90",
   "status": "proved",
   "theorems": [
    "C90_set_free_keeps_nothing",
    "C90_set_free_isolated",
    "C90_get_free_isolated",
    "C90_get_vector_isolated"
   ],
   "note": ""
  },
  {
   "property": "C91",
   "status": "proved",
   "theorems": [
    "C91_set_vector_follows"
   ],
   "note": ""
  },
  {
   "property": "C92",
   "status": "proved",
   "theorems": [
    "C92_get_aliases",
    "C92_get_vector_aliases"
   ],
   "note": ""
  },
  {
   "property": "C93",
   "status": "proved",
   "theorems": [
    "C93_shared_objects"
   ],
   "note": ""
  },
  {
   "property": "C94",
   "status": "proved",
   "theorems": [
    "C94_deepcopy",
    "C94_make_index_param"
   ],
   "note": ""
  },
  {
   "property": "C95",
   "status": "proved",
   "theorems": [
    "C95_names",
    "C95_names_match_vector",
    "C95_names_distinct",
    "C95_names_ambiguous_refuted",
    "C95_names_length_refuted"
   ],
   "note": ""
  },
  {
   "property": "C96",
   "status": "proved",
   "theorems": [
    "C96_dictval_lookup",
    "C96_dictval_leaf",
    "C96_dictval_faithful",
    "C96_renamed_refuted"
   ],
   "note": ""
  },
  {
   "property": "C97",
   "status": "proved",
   "theorems": [
    "C97_view_read",
    "C97_view_write",
    "C97_view_errors",
    "C97_view_read_errors"
   ],
   "note": ""
  },
  {
   "property": "C98",
   "status": "proved",
   "theorems": [
    "C98_safe_matmul_vector",
    "C98_safe_matmul",
    "C98_compress",
    "C98_compress_array"
   ],
   "note": ""
  },
  {
   "property": "C99",
   "status": "proved",
   "theorems": [
    "C99_timer",
    "C99_timer_raises"
   ],
   "note": ""
  },
  {
   "property": "C100",
   "status": "proved",
   "theorems": [
    "C100_lower_bound",
    "C100_monotone",
    "C100_zero_bound",
    "C100_absorbed"
   ],
   "note": ""
  },
  {
   "property": "C101",
   "status": "proved",
   "theorems": [
    "C101_upper_bound",
    "C101_monotone"
   ],
   "note": ""
  },
  {
   "property": "C102",
   "status": "proved",
   "theorems": [
    "C102_values",
    "C102_power_of_two_width"
   ],
   "note": ""
  },
  {
   "property": "C103",
   "status": "proved",
   "theorems": [
    "C103_overflow_nan",
    "C103_upper_bound_passed"
   ],
   "note": ""
  },
  {
   "property": "C104",
   "status": "proved",
   "theorems": [
    "C104_get_free_domain",
    "C104_unbounded"
   ],
   "note": ""
  },
  {
   "property": "C105",
   "status": "proved",
   "theorems": [
    "C105_normal",
    "C105_normal_vector",
    "C105_normal_array",
    "C105_moment_array",
    "C105_multivariate_array",
    "C105_multivariate_normal",
    "C105_gamma",
    "C105_dirichlet",
    "C105_wishart",
    "C105_wishart_matrix_bound"
   ],
   "note": ""
  },
  {
   "property": "C106",
   "status": "proved",
   "theorems": [
    "C106_construction",
    "C106_default_lower",
    "C106_default_upper",
    "C106_default_both"
   ],
   "note": ""
  },
  {
   "property": "C107",
   "status": "proved",
   "theorems": [
    "C107_linear_prediction",
    "C107_converted_prediction",
    "C107_remembered_output",
    "C107_linear_prediction_refuted"
   ],
   "note": ""
  },
  {
   "property": "C108",
   "status": "proved",
   "theorems": [
    "C108_implicit_derivatives"
   ],
   "note": ""
  },
  {
   "property": "C109",
   "status": "proved",
   "theorems": [
    "C109_vector_default",
    "C109_array_default",
    "C109_vector_value",
    "C109_array_value",
    "C109_invalid_value_refuted",
    "C109_bad_arguments"
   ],
   "note": ""
  },
  {
   "property": "C110",
   "status": "proved",
   "theorems": [
    "C110_default",
    "C110_no_columns",
    "C110_value",
    "C110_invalid_value_refuted",
    "C110_row_positions"
   ],
   "note": ""
  },
  {
   "property": "C111",
   "status": "proved",
   "theorems": [
    "C111_which_orders",
    "C111_faa_di_bruno"
   ],
   "note": "Formatted numbers and punctuation are not modelled; prefactors are real numbers."
  },
  {
   "property": "C112",
   "status": "proved",
   "theorems": [
    "C112_range",
    "C112_accuracy",
    "C112_infinite",
    "C112_length"
   ],
   "note": "Arithmetic is IEEE-754 binary64; exp, log and the order of summation are arguments with contracts (SpecFloatSimplex.v), met by correctly rounded exp and log and by addition from left to right. logsumexp follows scipy's published algorithm."
  },
  {
   "property": "C113",
   "status": "proved",
   "theorems": [
    "C113_get_free",
    "C113_round_trip",
    "C113_lost",
    "C113_default"
   ],
   "note": "As C112."
  },
  {
   "property": "C114",
   "status": "proved",
   "theorems": [
    "C114_density",
    "C114_C115_unique",
    "C114_classes",
    "C114_class_entropy",
    "C114_moment_array",
    "C114_rows",
    "C114_lognormal",
    "C114_entropy",
    "C114_prior",
    "C114_quadrature",
    "C114_polynomials",
    "C114_exact2",
    "C114_logistic_error",
    "C114_logitnormal_error",
    "C114_log_logitnormal_error"
   ],
   "note": "Integrals are improper Riemann integrals. numpy's hermgauss is not modelled: the exactness of the rule is a hypothesis, met by the three-point rule. UVNMomentParamArray.var_exp and e2_exp are wrong (C69) and left out."
  },
  {
   "property": "C115",
   "status": "proved",
   "theorems": [
    "C114_C115_unique",
    "C115_density",
    "C115_class",
    "C115_functions",
    "C115_gamma_prior",
    "C115_exponential_prior"
   ],
   "note": "gammaln and digamma are arguments; that they are the log gamma integral and its derivative is the hypothesis of the theorems, and such functions are shown to exist."
  },
  {
   "property": "C116",
   "status": "proved",
   "theorems": [
    "C116_density",
    "C116_unique",
    "C116_class",
    "C116_entropy",
    "C116_prior"
   ],
   "note": "Integrals are iterated improper Riemann integrals, shown to exist and agree in every order. inv and slogdet are arguments with contracts."
  },
  {
   "property": "C117",
   "status": "proved",
   "theorems": [
    "C117_density",
    "C117_unique",
    "C117_class",
    "C117_functions",
    "C117_beta_entropy",
    "C117_prior"
   ],
   "note": "Integrals are iterated improper Riemann integrals. gammaln and digamma are arguments assumed to be the log of the gamma integral and its derivative; such functions are shown to exist. For one category the density is that of the point mass at 1."
  },
  {
   "property": "C118",
   "status": "proved",
   "theorems": [
    "C118_density",
    "C118_unique",
    "C118_class",
    "C118_functions",
    "C118_lkj",
    "C118_e_inv"
   ],
   "note": "Integrals are iterated improper Riemann integrals, the diagonal entry of a row over the half line where the matrix is positive definite, then the other entries of the row. gammaln and digamma are arguments assumed to be the log of the gamma integral and its derivative; slogdet and inv are arguments with contracts. The expected log diagonal of the inverse is proved for orders of integration that take the row in question first; the LKJ prior is related to it term by term."
  },
  {
   "property": "C119",
   "status": "proved",
   "theorems": [
    "C119_vector",
    "C119_array",
    "C119_scalar"
   ],
   "note": "exp and log are arguments with the accuracy contracts exp_good and log_good (SpecFloatSimplex.v), which exp and log rounded to nearest meet (Example). The constants are not optimal."
  },
  {
   "property": "C120",
   "status": "proved",
   "theorems": [
    "C120_vector",
    "C120_array",
    "C120_scalar"
   ],
   "note": "exp and log are arguments with the accuracy contracts exp_good and log_good (SpecFloatSimplex.v), which exp and log rounded to nearest meet (Example). The constants are not optimal."
  },
  {
   "property": "C121",
   "status": "proved",
   "theorems": [
    "C121_vector",
    "C121_array",
    "C121_scalar"
   ],
   "note": "exp and log are arguments with the accuracy contracts exp_good and log_good (SpecFloatSimplex.v), which exp and log rounded to nearest meet (Example). The constants are not optimal."
  },
  {
   "property": "C122",
   "status": "proved",
   "theorems": [
    "C122_scalar",
    "C122_array",
    "C122_array_shapes",
    "C122_scalar_shapes"
   ],
   "note": "Holds for every exp and log function, with no contract. A Python float and a 0-d array are the same in the model."
  },
  {
   "property": "C123",
   "status": "proved",
   "theorems": [
    "C123_accuracy",
    "C123_never_nan",
    "C123_raises",
    "C123_row_lost"
   ],
   "note": "exp and the entries of A @ A.T are arguments with the contracts exp_good and matmul_good (SpecFloatMatrix.v); the left-to-right loop meets the latter (Example). The constants are not optimal."
  },
  {
   "property": "C124",
   "status": "proved",
   "theorems": [
    "C124_entries",
    "C124_raises",
    "C124_first_back",
    "C124_one",
    "C124_low_lost",
    "C124_high_lost",
    "C124_default_lost"
   ],
   "note": "The Cholesky factorisation is an argument with the contract cholesky_good (first pivot, lower triangle, failure), met by the textbook loop (Example). The round-trip bound here is for the first free value; C126 has one for all of them."
  },
  {
   "property": "C125",
   "status": "proved",
   "theorems": [
    "C125_vector",
    "C125_raises",
    "C125_again"
   ],
   "note": "Holds for every exp and matrix product, with no contract."
  },
  {
   "property": "C126",
   "status": "proved",
   "theorems": [
    "C126_round_trip",
    "C126_all_back"
   ],
   "note": "Further contracts on np.linalg.cholesky: cholesky_close (backward error) and cholesky_succeeds (SpecFloatCholesky.v); C126_all_back does without the latter. The textbook loop in binary64 is proved to meet all of them (C126_contracts). relative_error is stated with the inverse of the exact factor; the constants are not optimal."
  },
  {
   "property": "C127",
   "status": "proved",
   "theorems": [
    "C127_vector_set_free",
    "C127_array_set_free",
    "C127_vector_accurate",
    "C127_array_accurate",
    "C127_vector_unchecked",
    "C127_array_unchecked",
    "C127_vector_get_free",
    "C127_array_get_free",
    "C127_vector_round_trip",
    "C127_array_round_trip",
    "C127_vector_default",
    "C127_array_default",
    "C127_wrong_length"
   ],
   "note": "Contracts as in C123-C126. Vectors of length 0 are left out (C127_vector_*: 0 < length); arrays with no entries are included in set_free."
  },
  {
   "property": "C128",
   "status": "proved",
   "theorems": [
    "C128_vector",
    "C128_array",
    "C128_set",
    "C128_vector_init",
    "C128_array_init"
   ],
   "note": "The shape test of set is that of the code, which accepts some wrong shapes too (see the findings); the theorem is about right shapes."
  },
  {
   "property": "C129",
   "status": "proved",
   "theorems": [
    "C129_sizes",
    "C129_set_free",
    "C129_set_vector",
    "C129_wrong_length",
    "C129_get",
    "C129_get_empty",
    "C129_free_to_vector"
   ],
   "note": "SubVectorParam is not among the float members; index dictionaries and names are in the exact model (ModelDict). Pushing a name twice is left out (the exact model has it)."
  },
  {
   "property": "C130",
   "status": "proved",
   "theorems": [
    "C130_exact",
    "C130_parts",
    "C130_same"
   ],
   "note": "In-place aliasing between the caller's vector and the stored slices is not modelled here (values are copied)."
  },
  {
   "property": "C131",
   "status": "proved",
   "theorems": [
    "C131_round_trip"
   ],
   "note": "Contracts of exp, log, sum, matrix product and Cholesky as in C112-C127."
  },
  {
   "property": "C132",
   "status": "proved",
   "theorems": [
    "C132_refresh",
    "C132_inside"
   ],
   "note": "Contracts of exp, log, matrix product and Cholesky as in C122-C126. The bound is `moved` in SpecFloatRefresh.v."
  },
  {
   "property": "C133",
   "status": "proved",
   "theorems": [
    "C133_vector",
    "C133_array"
   ],
   "note": "As C132; an empty vector or array is left out (get_free raises there)."
  },
  {
   "property": "C134",
   "status": "proved",
   "theorems": [
    "C134_refresh",
    "C134_close"
   ],
   "note": "Entries equal to 0 are left out: their free value is -inf or nan. Contracts of exp, log and sum as in C112 and C113."
  },
  {
   "property": "C135",
   "status": "proved",
   "theorems": [
    "C135_refresh"
   ],
   "note": "The conditions on the values are `settled`, the bounds `moved_little` in SpecFloatDict3.v. A dictionary that is empty is left out (get_free raises there)."
  },
  {
   "property": "C136",
   "status": "proved",
   "theorems": [
    "C136_normal",
    "C136_normal_vector",
    "C136_normal_array",
    "C136_moment_array",
    "C136_multivariate_array",
    "C136_gamma",
    "C136_dirichlet",
    "C136_multivariate_normal",
    "C136_wishart",
    "C136_wishart_matrix_bound",
    "C136_fresh"
   ],
   "note": "The bounds for a fresh object are `fresh` in SpecFloatFam2.v, matrices up to size 2^20; the matrix of WishartParam always has size 2, as in the code. A +inf diagonal bound of MVNParam or WishartParam is left out."
  },
  {
   "property": "C137",
   "status": "proved",
   "theorems": [
    "C137_moments",
    "C137_normal_vector",
    "C137_normal_array",
    "C137_normal"
   ],
   "note": "x**2 is a contract (`squares` in SpecFloatFam.v), met by one rounded multiplication (fmul_squares)."
  },
  {
   "property": "C138",
   "status": "proved",
   "theorems": [
    "C138_from_normal",
    "C138_from_constant",
    "C138_shape"
   ],
   "note": "Histories are `history` in SpecFloatFam2.v. C138_example: mean 2^30 and info 1 give var() = 0."
  },
  {
   "property": "C139",
   "status": "proved",
   "theorems": [
    "C139_gamma",
    "C139_gamma_free",
    "C139_dirichlet",
    "C139_dirichlet_free",
    "C139_multivariate_array",
    "C139_wishart"
   ],
   "note": "e_log() (digamma), entropies and log densities are modelled over exact reals only. Products df * v of at most 2^1000 are assumed for WishartParam."
  },
  {
   "property": "C140",
   "status": "proved",
   "theorems": [
    "C140_lognormal",
    "C140_variance_sign",
    "C140_variance_lost"
   ],
   "note": "exp is the contract exp_good; C140_variance_lost is for the correctly rounded exp only."
  },
  {
   "property": "C141",
   "status": "proved",
   "theorems": [
    "C141_second_moment",
    "C141_singular"
   ],
   "note": "The inverse is an arbitrary function; its accuracy is not modelled."
  },
  {
   "property": "C142",
   "status": "proved",
   "theorems": [
    "C142_entropy",
    "C142_certain",
    "C142_simplex",
    "C142_default"
   ],
   "note": "log is the contract log_good together with log_below; the order of summation is arbitrary."
  },
  {
   "property": "C143",
   "status": "proved",
   "theorems": [
    "C143_log_expit",
    "C143_ends",
    "C143_expectations",
    "C143_zero_information",
    "C143_shapes"
   ],
   "note": "exp and log are the contracts exp_good and log_good; sqrt is correctly rounded (IEEE-754). The accuracy is with respect to the exact value of the rule with the given points and weights (C72 is about the rule itself)."
  },
  {
   "property": "C144",
   "status": "proved",
   "theorems": [
    "C144_entropy",
    "C144_empty",
    "C144_no_information",
    "C144_entropy_of",
    "C144_normal_vector",
    "C144_normal_array",
    "C144_normal"
   ],
   "note": "log is the contract log_good. The error is relative to the sizes of the terms, since the entropy itself may vanish by cancellation."
  },
  {
   "property": "C145",
   "status": "proved",
   "theorems": [
    "C145_natural_parameters",
    "C145_round_trip",
    "C145_normal_prior",
    "C145_gamma_prior",
    "C145_exponential_prior"
   ],
   "note": "x ** 2 is the contract squares (within 2 units and one underflow, not negative)."
  },
  {
   "property": "C146",
   "status": "proved",
   "theorems": [
    "C146_any_integrand",
    "C146_logitnormal",
    "C146_shapes",
    "C146_dp_prior"
   ],
   "note": "scipy.special.expit is the contract expit_good (finite, between 0 and 1, within 8 units)."
  },
  {
   "property": "C147",
   "status": "proved",
   "theorems": [
    "C147_multivariate_normal",
    "C147_multivariate_normal_shapes",
    "C147_dirichlet",
    "C147_dirichlet_shapes"
   ],
   "note": "The inner products of np.dot and np.matmul are the contract dot_good (n rounding errors, any order); arrays with more than two dimensions are left out."
  },
  {
   "property": "C148",
   "status": "proved",
   "theorems": [
    "C148_e_log",
    "C148_entropy"
   ],
   "note": "digamma and gammaln are functions that compute any real functions psi and lgam up to a stated error (contract computes)."
  },
  {
   "property": "C149",
   "status": "proved",
   "theorems": [
    "C149_e_log"
   ],
   "note": "digamma is a function that computes any real function psi up to a stated error (contract computes) and psi is steady under small relative changes of its argument (contract steady)."
  },
  {
   "property": "C150",
   "status": "proved",
   "theorems": [
    "C150_multivariate_digamma",
    "C150_e_log_det",
    "C150_refused"
   ],
   "note": "digamma is as in C149; slogdet is a library function whose result enters with its own error err."
  },
  {
   "property": "C151",
   "status": "proved",
   "theorems": [
    "C151_e_log_inv_diag",
    "C151_small_df",
    "C151_lkj_prior"
   ],
   "note": "digamma and slogdet are as in C149 and C150. The theorems are about the diagonal that the library's inverse returns; its distance from the diagonal of the exact inverse is not bounded. For n - 1 < df < n only the loss at df <= 2^-55, n = 1 is stated."
  }
 ]
}