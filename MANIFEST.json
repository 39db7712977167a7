{
 "claims": [
  {
   "property": "C01",
   "status": "proved",
   "theorems": [
    "C01_slices_tile",
    "C01_slice_length",
    "C01_entry_owner"
   ],
   "note": ""
  },
  {
   "property": "C02",
   "status": "proved",
   "theorems": [
    "C02_large_shapes_refuted"
   ],
   "note": "The unrestricted claim is false of the code (32-bit sizes); the witness is proved. C01 is the claim with the size bound."
  },
  {
   "property": "C03",
   "status": "proved",
   "theorems": [
    "C03_unique_names",
    "C03_registration",
    "C03_names_stable"
   ],
   "note": ""
  },
  {
   "property": "C04",
   "status": "proved",
   "theorems": [
    "C04_pack_unpack",
    "C04_add_unpack",
    "C04_broadcast_rule",
    "C04_short_destination",
    "C04_components_fit"
   ],
   "note": ""
  },
  {
   "property": "C05",
   "status": "proved",
   "theorems": [
    "C05_C06_decision",
    "C05_C06_piece",
    "C05_C06_endpoints",
    "C05_C06_measurement"
   ],
   "note": ""
  },
  {
   "property": "C06",
   "status": "proved",
   "theorems": [
    "C05_C06_decision",
    "C05_C06_piece",
    "C05_C06_endpoints",
    "C05_C06_measurement",
    "C06_single_point_refuted"
   ],
   "note": ""
  },
  {
   "property": "C07",
   "status": "proved",
   "theorems": [
    "C07_piece_rows",
    "C07_shared_endpoint",
    "C07_endpoint_rows",
    "C07_measured_rows"
   ],
   "note": ""
  },
  {
   "property": "C08",
   "status": "proved",
   "theorems": [
    "C08_constraint_layout",
    "C08_unpack_constraints",
    "selector_exists"
   ],
   "note": ""
  },
  {
   "property": "C09",
   "status": "proved",
   "theorems": [
    "C09_jacobian",
    "C09_constraint_hessian",
    "C09_objective_hessian",
    "C14_lagrangian_hessian"
   ],
   "note": ""
  },
  {
   "property": "C10",
   "status": "proved",
   "theorems": [
    "C10_jacobian_directional",
    "C10_jacobian"
   ],
   "note": ""
  },
  {
   "property": "C11",
   "status": "proved",
   "theorems": [
    "C11_gradient"
   ],
   "note": ""
  },
  {
   "property": "C12",
   "status": "proved",
   "theorems": [
    "C12_lagrangian_hessian"
   ],
   "note": ""
  },
  {
   "property": "C13",
   "status": "proved",
   "theorems": [
    "C13_overlap_refuted"
   ],
   "note": "The unguarded claim is false of the code; the witness is proved. C12 is the claim with the guard."
  },
  {
   "property": "C14",
   "status": "proved",
   "theorems": [
    "C14_lagrangian_hessian",
    "C14_linear"
   ],
   "note": ""
  },
  {
   "property": "C15",
   "status": "proved",
   "theorems": [
    "C15_ipopt"
   ],
   "note": ""
  },
  {
   "property": "C16",
   "status": "proved",
   "theorems": [
    "C16_renaming"
   ],
   "note": ""
  },
  {
   "property": "C17",
   "status": "proved",
   "theorems": [
    "C17_repeated_argument_refuted",
    "C17_last_block_wins"
   ],
   "note": "The claim is false of the code; the witness and the general collapse rule are proved."
  },
  {
   "property": "C18",
   "status": "proved",
   "theorems": [
    "C18_jacobian_positions",
    "C18_hessian_positions",
    "C18_values",
    "C18_derivatives"
   ],
   "note": "sym2num batching (elementwise evaluation over broadcast leading axes) is modelled by the definition batch, not derived from sym2num source."
  },
  {
   "property": "C19",
   "status": "proved",
   "theorems": [
    "C19_gradient_sums",
    "C19_gradient_derivative",
    "C19_general_broadcast_refuted"
   ],
   "note": "Holds when the leading axes of the argument are a suffix of the batch axes; refuted without that condition."
  },
  {
   "property": "C20",
   "status": "proved",
   "theorems": [
    "C20_sparse_extraction"
   ],
   "note": "Symbolic expressions are abstract values with a syntactic nonzero flag; the only assumption on them is that an expression flagged zero evaluates to zero."
  },
  {
   "property": "C21",
   "status": "proved",
   "theorems": [
    "C21_constraint_order",
    "C21_objective_order",
    "C21_generated_constraint",
    "C21_generated_objective"
   ],
   "note": "Also: the functions generated after registration in any order are, once bound to a problem, functions with correct first and second derivatives in the sense used by C10-C13."
  },
  {
   "property": "C22",
   "status": "proved",
   "theorems": [
    "C22_same_function",
    "C22_all_functions",
    "C22_value_names",
    "C22_refuted_general",
    "C22_double_deriv_name"
   ],
   "note": "Holds when \"_d\" occurs in no variable name (and, across functions, no function name); refuted in general."
  },
  {
   "property": "C23",
   "status": "proved",
   "theorems": [
    "C23_grid",
    "C23_empty"
   ],
   "note": "Exact arithmetic over any real closed field."
  },
  {
   "property": "C24",
   "status": "proved",
   "theorems": [
    "C24_interval_matrix",
    "C24_quadrature",
    "C24_column_sums",
    "C24_weights_sum",
    "C24_every_polynomial",
    "C24_nodes"
   ],
   "note": "Exact arithmetic over any real closed field."
  },
  {
   "property": "C25",
   "status": "proved",
   "theorems": [
    "C25_lobatto_exact"
   ],
   "note": "roots() is modelled as the exact increasing list of real roots; C27_points proves there are n-2 of them."
  },
  {
   "property": "C26",
   "status": "proved",
   "theorems": [
    "C26_defects",
    "C26_piece_sum"
   ],
   "note": ""
  },
  {
   "property": "C27",
   "status": "proved",
   "theorems": [
    "C27_order_error",
    "C27_points"
   ],
   "note": ""
  },
  {
   "property": "C28",
   "status": "proved",
   "theorems": [
    "C28_kept_measurements",
    "C28_oem",
    "C28_jme"
   ],
   "note": "The collocation nodes are a parameter whose first entry is 0 (C27_points proves this of the nodes rk.py computes)."
  },
  {
   "property": "C29",
   "status": "proved",
   "theorems": [
    "C29_oem",
    "C29_jme"
   ],
   "note": ""
  },
  {
   "property": "C30",
   "status": "proved",
   "theorems": [
    "C30_oc",
    "C30_oem",
    "C30_jme"
   ],
   "note": "The functions of the model are generated ones (GenModel) whose parameters have the base shapes symcol/symoc/symoem/symjme declare; L takes its four parameters in order."
  },
  {
   "property": "C31",
   "status": "proved",
   "theorems": [
    "C31_weights",
    "C31_moments",
    "C31_options"
   ],
   "note": ""
  },
  {
   "property": "C32",
   "status": "proved",
   "theorems": [
    "C32_affine",
    "C32_sample_moments"
   ],
   "note": ""
  },
  {
   "property": "C33",
   "status": "proved",
   "theorems": [
    "C33_symmetric",
    "C33_psd",
    "C33_negative_kappa"
   ],
   "note": "the semidefiniteness is proved for kappa >= 0 and refuted for every -1 < kappa < 0 by C33_negative_kappa"
  },
  {
   "property": "C34",
   "status": "proved",
   "theorems": [
    "C34_chol",
    "C34_chol_lower_triangle",
    "C34_svd",
    "C34_svd_indefinite"
   ],
   "note": "np.linalg.svd enters through its contract is_svd; the SVD identity is proved to hold exactly for semidefinite matrices"
  },
  {
   "property": "C35",
   "status": "proved",
   "theorems": [
    "C35_diff",
    "C35_diff2",
    "C35_derivative",
    "C35_second_derivative"
   ],
   "note": ""
  },
  {
   "property": "C36",
   "status": "proved",
   "theorems": [
    "C36_ekf",
    "C36_ekf_correct_decreases",
    "C36_ukf",
    "C36_ukf_correct_decreases"
   ],
   "note": ""
  },
  {
   "property": "C37",
   "status": "proved",
   "theorems": [
    "C37_minimum_variance",
    "C37_unique"
   ],
   "note": ""
  },
  {
   "property": "C38",
   "status": "proved",
   "theorems": [
    "C38_masked_values",
    "C38_masked_sequences",
    "C38_fully_masked",
    "C38_reduced_model"
   ],
   "note": ""
  },
  {
   "property": "C39",
   "status": "proved",
   "theorems": [
    "C39_filter_smooth",
    "C39_cholesky",
    "C39_innovations",
    "C39_semidefinite"
   ],
   "note": ""
  },
  {
   "property": "C40",
   "status": "proved",
   "theorems": [
    "C40_filter",
    "C40_causal",
    "C40_prefix"
   ],
   "note": ""
  },
  {
   "property": "C41",
   "status": "proved",
   "theorems": [
    "C41_last_sample",
    "C41_covariance_ekf",
    "C41_covariance_ukf",
    "C41_map",
    "C41_map_ukf"
   ],
   "note": ""
  },
  {
   "property": "C42",
   "status": "proved",
   "theorems": [
    "C42_merit",
    "C42_total",
    "C42_masked"
   ],
   "note": "R symmetric is assumed; np.log is the natural logarithm on the reals"
  },
  {
   "property": "C43",
   "status": "proved",
   "theorems": [
    "C43_total",
    "C43_gradient",
    "C43_unique"
   ],
   "note": "Differentiability of the model is stated as the chain rule along differentiable curves of parameters and states, in regions that the run must stay in."
  },
  {
   "property": "C44",
   "status": "proved",
   "theorems": [
    "C44_total",
    "C44_hessian"
   ],
   "note": "As C43; the second derivatives by the state are symmetric."
  },
  {
   "property": "C45",
   "status": "proved",
   "theorems": [
    "C45_merit_fails",
    "C45_merit_attribute",
    "C45_merit_masked",
    "C45_gradient"
   ],
   "note": "the property as stated is refuted: the theorems determine exactly when a value is returned"
  },
  {
   "property": "C46",
   "status": "proved",
   "theorems": [
    "C46_initial",
    "C46_initial_total",
    "C46_d2L_dq2_ignored",
    "C46_d2L_dq2_from_dL_dq",
    "C46_transform",
    "C46_filter",
    "C46_separate"
   ],
   "note": "proved for every quantity but d2L_dq2, for which it is refuted by C46_d2L_dq2_ignored and C46_d2L_dq2_from_dL_dq"
  },
  {
   "property": "C47",
   "status": "proved",
   "theorems": [
    "C47_orthogonal",
    "C47_proper_rotation",
    "C47_double_cover",
    "C47_product",
    "C47_cover_exact"
   ],
   "note": "The matrix maps reference to body coordinates, so a product of quaternions becomes the reversed product of matrices."
  },
  {
   "property": "C48",
   "status": "proved",
   "theorems": [
    "C48_hamilton",
    "C48_tangent",
    "C48_norm_rate",
    "C48_norm_preserved",
    "C48_renormalisation_stable",
    "C48_rotation_rate",
    "C48_attitude_kinematics"
   ],
   "note": ""
  },
  {
   "property": "C49",
   "status": "proved",
   "theorems": [
    "C49_euler_angles",
    "C49_ranges"
   ],
   "note": "Away from gimbal lock: entry (0,2) of the matrix strictly between -1 and 1."
  },
  {
   "property": "C50",
   "status": "proved",
   "theorems": [
    "C50_psd",
    "C50_euler_Q",
    "C50_as15_Q",
    "C50_drift",
    "C50_euler_f",
    "C50_h",
    "C50_linear_order",
    "C50_linear_exact"
   ],
   "note": "C50_drift: the order 1.5 drift is x + dt f + dt^2/2 times the time derivative of f plus the Ito correction"
  },
  {
   "property": "C51",
   "status": "proved",
   "theorems": [
    "C51_unmasked",
    "C51_all_masked",
    "C51_masked",
    "C51_uncorrelated",
    "C51_marginal_iff",
    "C51_correlated_refuted",
    "C51_row_refuted"
   ],
   "note": "the marginal claim is refuted; the theorems determine the value that is returned"
  },
  {
   "property": "C52",
   "status": "proved",
   "theorems": [
    "C52_gram",
    "C52_iff",
    "C52_refuted",
    "C52_rvs"
   ],
   "note": "refuted: the product is a a^T"
  },
  {
   "property": "C53",
   "status": "proved",
   "theorems": [
    "C53_log_density",
    "C53_masked",
    "C53_constant",
    "C53_maximum"
   ],
   "note": "Real arithmetic: data under the mask are finite (0*nan is not modelled)."
  },
  {
   "property": "C54",
   "status": "proved",
   "theorems": [
    "C54_central_value",
    "C54_central_empty",
    "C54_forward_value",
    "C54_step",
    "C54_central_quadratic",
    "C54_forward_affine",
    "C54_central_error",
    "C54_forward_error"
   ],
   "note": "Exact arithmetic. The claim is refuted for an empty point (C54_central_empty: None is returned)."
  },
  {
   "property": "C55",
   "status": "proved",
   "theorems": [
    "C55_subkey",
    "C55_lookup",
    "C55_word_keys",
    "C55_characters"
   ],
   "note": "ASCII text; the base holds no regular-expression operators."
  },
  {
   "property": "C56",
   "status": "proved",
   "theorems": [
    "C56_once_per_object",
    "C56_values",
    "C56_cached_method",
    "C56_only_once_refuted",
    "C56_runs"
   ],
   "note": "The docstring claim is refuted from 129 objects on; the bounded claim is proved."
  },
  {
   "property": "C57",
   "status": "proved",
   "theorems": [
    "C57_running_cost",
    "C57_exact"
   ],
   "note": "Exact arithmetic over any real closed field; L is an arbitrary function."
  },
  {
   "property": "C58",
   "status": "proved",
   "theorems": [
    "C58_defects",
    "C58_tube_value",
    "C58_tube_nonpos",
    "C58_penalty_value",
    "C58_penalty_nonpos"
   ],
   "note": "Exact arithmetic; the result is for any JT_range with one row per node."
  },
  {
   "property": "C59",
   "status": "proved",
   "theorems": [
    "C59_comparison",
    "C59_nan",
    "C59_strict",
    "C59_asymmetric",
    "C59_tolerance"
   ],
   "note": "Elements are finite numbers or NaN; infinities are not modelled."
  },
  {
   "property": "C60",
   "status": "proved",
   "theorems": [
    "C60_registrations_independent"
   ],
   "note": ""
  },
  {
   "property": "C61",
   "status": "proved",
   "theorems": [
    "C61_weights_positive"
   ],
   "note": ""
  },
  {
   "property": "C62",
   "status": "proved",
   "theorems": [
    "C62_full_row_rank"
   ],
   "note": ""
  },
  {
   "property": "C63",
   "status": "proved",
   "theorems": [
    "C63_noise_parameters"
   ],
   "note": "scipy.linalg.orth is modelled by its contract: orthonormal columns spanning the rows of J."
  },
  {
   "property": "C64",
   "status": "proved",
   "theorems": [
    "C64_optimal_control"
   ],
   "note": "Exact arithmetic over any real closed field; the generated functions are assumed to compute the expressions of symcol/symoc (record oc_expresses), whose meaning SymColModel/RkModel give."
  },
  {
   "property": "C65",
   "status": "proved",
   "theorems": [
    "C65_output_error"
   ],
   "note": "As C64 (record oem_expresses)."
  },
  {
   "property": "C66",
   "status": "proved",
   "theorems": [
    "C66_joint_map"
   ],
   "note": "As C64 (record jme_expresses)."
  },
  {
   "property": "C67",
   "status": "proved",
   "theorems": [
    "C67_oc",
    "C67_oem",
    "C67_jme"
   ],
   "note": "The differentiability of the symbolic functions is a hypothesis here; C70 derives it for expressions."
  },
  {
   "property": "C68",
   "status": "proved",
   "theorems": [
    "C68_flat_cat",
    "C68_empty"
   ],
   "note": ""
  },
  {
   "property": "C69",
   "status": "proved",
   "theorems": [
    "C69_rvs",
    "C69_rvs_given",
    "C69_singular",
    "C69_density",
    "C69_as15_rank",
    "C69_value"
   ],
   "note": ""
  },
  {
   "property": "C70",
   "status": "proved",
   "theorems": [
    "C70_optimal_control",
    "C70_output_error",
    "C70_joint_map",
    "C70_drift_jacobian"
   ],
   "note": "Expressions are built from constants, variable elements, sums, products and seven smooth functions."
  },
  {
   "property": "C71",
   "status": "proved",
   "theorems": [
    "C71_total",
    "C71_gradient",
    "C71_hessian"
   ],
   "note": "Expressions as in C70; the covariances are assumed symmetric."
  },
  {
   "property": "C72",
   "status": "proved",
   "theorems": [
    "C72_euler_f",
    "C72_euler_Q",
    "C72_as15_f",
    "C72_as15_Q",
    "C72_h",
    "C72_derivatives",
    "C72_total",
    "C72_gradient",
    "C72_hessian"
   ],
   "note": "duffing_exact instantiates it at the model of examples/duffing_old.py."
  },
  {
   "property": "C73",
   "status": "proved",
   "theorems": [
    "C73_ukf_filter",
    "C73_ukf_smooth",
    "C73_ukf_merit",
    "C73_ekf_filter",
    "C73_ekf_smooth",
    "C73_ekf_merit",
    "C73_gradient",
    "C73_hessian",
    "C73_ukf_total",
    "C73_ekf_total",
    "C73_vectorise"
   ],
   "note": "Measurements, R and its derivatives are shared by the stack, as in the code."
  },
  {
   "property": "C74",
   "status": "proved",
   "theorems": [
    "C74_ukf",
    "C74_ekf",
    "C74_gradient",
    "C74_hessian"
   ],
   "note": ""
  },
  {
   "property": "C75",
   "status": "proved",
   "theorems": [
    "C75_index",
    "C75_slice",
    "C75_slice_update",
    "C75_kappa",
    "C75_no_samples",
    "C75_constraint_levels",
    "C75_objective_levels",
    "C75_sum_lead",
    "C75_no_endpoints",
    "C75_measured_index",
    "C75_put_row",
    "C75_assigned_shape",
    "C75_measured_rows",
    "C75_arguments",
    "C75_index_rows",
    "C75_data"
   ],
   "note": ""
  },
  {
   "property": "C76",
   "status": "proved",
   "theorems": [
    "C76_shared_covariance",
    "C76_shared_rank",
    "C76_stacked_covariance"
   ],
   "note": ""
  },
  {
   "property": "C77",
   "status": "proved",
   "theorems": [
    "C77_optimal_control",
    "C77_output_error",
    "C77_joint_map",
    "C77_generated",
    "C77_dictionaries",
    "C77_missing"
   ],
   "note": ""
  },
  {
   "property": "C78",
   "status": "proved",
   "theorems": [
    "C78_density",
    "C78_all_masked",
    "C78_masked",
    "C78_more_axes",
    "C78_silent",
    "C78_not_square",
    "C78_trans_pdf",
    "C78_meas_pdf",
    "C78_meas_missing",
    "C78_trans_rvs",
    "C78_trans_rvs_given"
   ],
   "note": "np.linalg.solve as in NumPy 1.x; exact arithmetic."
  },
  {
   "property": "C79",
   "status": "proved",
   "theorems": [
    "C79_gradient",
    "C79_hessian",
    "C79_gradient_second",
    "C79_again",
    "C79_state_arrays",
    "C79_constructed",
    "C79_caller",
    "C79_options",
    "C79_stored",
    "C79_whole"
   ],
   "note": "An array is a location; views are not modelled, the code takes none of the arrays it updates."
  },
  {
   "property": "C80",
   "status": "proved",
   "theorems": [
    "C80_mask",
    "C80_ix",
    "C80_all_masked",
    "C80_ekf_length",
    "C80_ukf_length",
    "C80_propagates",
    "C80_filter_cat",
    "C80_propagates_later",
    "C80_einsum_axes",
    "C80_inplace",
    "C80_linalg"
   ],
   "note": ""
  },
  {
   "property": "C81",
   "status": "proved",
   "theorems": [
    "C81_binding",
    "C81_binding_unique",
    "C81_with_signature",
    "C81_call",
    "C81_names",
    "C81_derivatives",
    "C81_gradient_argument",
    "C81_gradient_too_few",
    "C81_problem",
    "C81_missing",
    "C81_renamed",
    "C81_plain",
    "C81_no_self"
   ],
   "note": "Parameters have no defaults, as in generated code."
  },
  {
   "property": "C82",
   "status": "proved",
   "theorems": [
    "C82_euler",
    "C82_as15",
    "C82_Q",
    "C82_sizes",
    "C82_draws",
    "C82_not_matrix",
    "C82_variables",
    "C82_as15_functions",
    "C82_as15_total",
    "C82_as15_missing"
   ],
   "note": "Array elements are values of a real closed field instead of SymPy expressions."
  },
  {
   "property": "C83",
   "status": "proved",
   "theorems": [
    "C83_set",
    "C83_set_outcome",
    "C83_variables",
    "C83_assert",
    "C83_assign"
   ],
   "note": "Slices have step 1; index arrays are not modelled here."
  },
  {
   "property": "C84",
   "status": "proved",
   "theorems": [
    "C84_bounds",
    "C84_brachistochrone",
    "C84_brachistochrone_feasible",
    "C84_bryson_denham",
    "C84_attas",
    "C84_duffing"
   ],
   "note": "Collocation order, grid and data are arbitrary instead of those of the scripts; initial guesses, scaling and solver options are not modelled; attas_sp.py is taken with no masked value."
  },
  {
   "property": "C85",
   "status": "proved",
   "theorems": [
    "C85_exact",
    "C85_piece_len",
    "C85_grid",
    "C85_grid_strict",
    "C85_grid_repeats",
    "C85_moves",
    "C85_stuck",
    "C85_stuck_below",
    "C85_negative"
   ],
   "note": "The collocation points are data: their computation as roots is not modelled in binary64."
  },
  {
   "property": "C86",
   "status": "proved",
   "theorems": [
    "C86_decimal",
    "C86_forms",
    "C86_forms_jme",
    "C86_layout",
    "C86_symcol",
    "C86_symoc",
    "C86_symoem",
    "C86_symjme",
    "C86_distinct_col",
    "C86_distinct_oc",
    "C86_distinct_jme",
    "C86_plain",
    "C86_derivative",
    "C86_derivative2",
    "C86_derivative_only",
    "C86_value",
    "C86_value_only",
    "C86_generated",
    "C86_model",
    "C86_collision"
   ],
   "note": "How sym2num turns names into SymPy symbols and prints functions is a contract: a symbol is its name, arguments are unpacked in order."
  },
  {
   "property": "C87",
   "status": "proved",
   "theorems": [
    "C87_init",
    "C87_hessian",
    "C87_gradient",
    "C87_merit",
    "C87_merit_value",
    "C87_filter",
    "C87_filter_value",
    "C87_smooth",
    "C87_no_correct",
    "C87_no_predict",
    "C87_no_prediction_diff",
    "C87_no_correction_diff",
    "C87_no_update_likelihood",
    "C87_masked",
    "C87_correct_raises",
    "C87_predict_raises",
    "C87_cache",
    "C87_cache_empty"
   ],
   "note": "The model functions do not raise; in-place updates bind the new value (C79 has the sharing). C87_merit and C87_filter are about the computation without prediction_crosscov, which these loops do not call."
  },
  {
   "property": "C88",
   "status": "proved",
   "theorems": [
    "C88_changing",
    "C88_kept",
    "C88_state",
    "C88_stuck",
    "C88_prediction_diff",
    "C88_merit",
    "C88_gradient",
    "C88_hessian",
    "C88_filter",
    "C88_smooth",
    "C88_correct_raises",
    "C88_predict_raises",
    "C88_loops"
   ],
   "note": "The functions of the model exist and do not raise; the statements after the first one that cannot be executed are not modelled."
  },
  {
   "property": "C89",
   "status": "proved",
   "theorems": [
    "C89_ekf_filter",
    "C89_ekf_smooth",
    "C89_ukf_filter",
    "C89_ukf_smooth",
    "C89_merit",
    "C89_order"
   ],
   "note": "Exact arithmetic, one filter; C73 and C74 carry it to the array code and stacks."
  },
  {
   "property": "C90",
   "status": "proved",
   "theorems": [
    "C90_ekf",
    "C90_ukf",
    "C90_ekf_each",
    "C90_ukf_each",
    "C90_correlated"
   ],
   "note": "Exact arithmetic, one filter; the logarithm is any function that turns products of positive numbers into sums."
  },
  {
   "property": "C91",
   "status": "proved",
   "theorems": [
    "C91_kept",
    "C91_symmetric",
    "C91_state",
    "C91_mixed",
    "C91_needed"
   ],
   "note": "Exact arithmetic, one filter; C74 carries it to the array code."
  }
 ]
}