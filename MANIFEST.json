{
 "claims": [
  {
   "property": "C01",
   "status": "proved",
   "theorems": [
    "C01_unflatten_flatten",
    "C01_flatten_unflatten"
   ],
   "note": ""
  },
  {
   "property": "C02",
   "status": "proved",
   "theorems": [
    "C02_unflatten_length",
    "C02_no_leaves"
   ],
   "note": ""
  },
  {
   "property": "C03",
   "status": "proved",
   "theorems": [
    "C03_partial_roundtrip",
    "C03_partial_unflatten_flatten",
    "C03_zero_dim_raises"
   ],
   "note": ""
  },
  {
   "property": "C04",
   "status": "proved",
   "theorems": [
    "C04_basis_vector",
    "C04_basis_vector_out_of_range",
    "C04_eye_like"
   ],
   "note": ""
  },
  {
   "property": "C05",
   "status": "proved",
   "theorems": [
    "C05_wrap_function",
    "C05_wrap_argnums_out_of_range",
    "C05_wrap_twice",
    "C05_wrap_factory",
    "C05_flatten_function",
    "C05_negative_argnums_refuted"
   ],
   "note": "Integer argnums; negative argnums are shown not to behave like Python indices (C05_negative_argnums_refuted)."
  },
  {
   "property": "C06",
   "status": "proved",
   "theorems": [
    "C06_add_sub",
    "C06_neg_mul",
    "C06_add_structure_mismatch",
    "C06_normal_like"
   ],
   "note": ""
  },
  {
   "property": "C07",
   "status": "proved",
   "theorems": [
    "C07_tree_matvec"
   ],
   "note": ""
  },
  {
   "property": "C08",
   "status": "proved",
   "theorems": [
    "C08_linear",
    "C08_diagonal_tree",
    "C08_diagonal_int",
    "C08_diagonal_dense",
    "C08_diagonal_needs_layout"
   ],
   "note": ""
  },
  {
   "property": "C09",
   "status": "proved",
   "theorems": [
    "C09_linear_is_matrix",
    "C09_linear_recovers",
    "C09_linear_determined",
    "C09_to_dense_int",
    "C09_to_dense_tree",
    "C09_to_dense_none_layout"
   ],
   "note": "The TypeError documented for an unsupported layout is unreachable: None is itself a PyTree without leaves and ends in ValueError (C09_to_dense_none_layout)."
  },
  {
   "property": "C10",
   "status": "proved",
   "theorems": [
    "C10_reduce_add_partition",
    "C10_reduce_add",
    "C10_empty_loader",
    "C10_batch_error",
    "C10_reduce_sum"
   ],
   "note": ""
  },
  {
   "property": "C11",
   "status": "proved",
   "theorems": [
    "C11_online_mean",
    "C11_online_mean_state",
    "C11_scalar_results"
   ],
   "note": ""
  },
  {
   "property": "C12",
   "status": "proved",
   "theorems": [
    "C12_reduce_concat",
    "C12_concat_batching_invisible"
   ],
   "note": ""
  },
  {
   "property": "C13",
   "status": "proved",
   "theorems": [
    "C13_call_is_sum",
    "C13_wrap",
    "C13_wrap_none",
    "C13_wrap_twice",
    "C13_wrap_keeps_original",
    "C13_to_dense",
    "C13_diagonal",
    "C13_default_reduce_refuted"
   ],
   "note": "The default reduction (online mean) collapses a flat product to a scalar: C13_default_reduce_refuted."
  },
  {
   "property": "C14",
   "status": "proved",
   "theorems": [
    "C14_precompute_list",
    "C14_precompute_off",
    "C14_str_to_bool"
   ],
   "note": ""
  },
  {
   "property": "C15",
   "status": "proved",
   "theorems": [
    "C15_ggn_formula",
    "C15_ggn_without_data_linear_symmetric_psd",
    "C15_ggn_linear_symmetric_psd",
    "C15_ggn_custom_hessian"
   ],
   "note": ""
  },
  {
   "property": "C16",
   "status": "proved",
   "theorems": [
    "C16_ggn_scaling",
    "C16_ggn_default_counts",
    "C16_ggn_one_count",
    "C16_ggn_split",
    "C16_ggn_batches",
    "C16_laplace_factor",
    "C16_laplace_scales_like_create_ggn_mv_refuted",
    "C16_hessian_split",
    "C16_hessian_minibatch",
    "C16_minibatch_without_replacement",
    "C16_minibatch_with_replacement",
    "C16_laplace_minibatch"
   ],
   "note": "Finding: laplace() passes num_curv_samples/num_total_samples, the inverse of create_ggn_mv's factor (C16_laplace_scales_like_create_ggn_mv_refuted)."
  },
  {
   "property": "C17",
   "status": "proved",
   "theorems": [
    "C17_mse",
    "C17_binary_cross_entropy",
    "C17_cross_entropy",
    "C17_custom_loss",
    "C17_hvp_unique",
    "C17_symmetric_psd",
    "C17_cross_entropy_kernel"
   ],
   "note": "Derivatives are taken in Coq's reals with Coquelicot; jax autodiff is trusted to compute them."
  },
  {
   "property": "C18",
   "status": "proved",
   "theorems": [
    "C18_affine_any_loss",
    "C18_gauss_newton",
    "C18_interpolation",
    "C18_hessian_psd_refuted",
    "C18_gauss_newton_any_loss",
    "C18_chain_rule_mse",
    "C18_chain_rule_binary_cross_entropy",
    "C18_chain_rule_cross_entropy",
    "C18_ggn_is_hessian",
    "C18_ggn_is_second_derivative"
   ],
   "note": ""
  },
  {
   "property": "C19",
   "status": "proved",
   "theorems": [
    "C19_exactly_one_loss",
    "C19_one_loss_accepted",
    "C19_loss_names",
    "C19_without_data_prefers_hessian",
    "C19_hessian_loss_names",
    "C19_hessian_supports_all_losses_refuted",
    "C19_hessian_cross_entropy_unusable"
   ],
   "note": "Finding: the Hessian route rejects two documented LossFn members, and with cross_entropy hands back an unsummed array (C19_hessian_*)."
  },
  {
   "property": "C20",
   "status": "proved",
   "theorems": [
    "C20_scale_exists_iff_spd",
    "C20_scale_correct",
    "C20_scale_symmetrises",
    "C20_full_posterior",
    "C20_missing_prior_prec"
   ],
   "note": "Cholesky and the triangular solve are concrete recursive functions in exact arithmetic; existence of the factor is proved equivalent to positive definiteness."
  },
  {
   "property": "C21",
   "status": "proved",
   "theorems": [
    "C21_diagonal_posterior",
    "C21_applicable"
   ],
   "note": ""
  },
  {
   "property": "C22",
   "status": "proved",
   "theorems": [
    "C22_low_rank_mv_dense",
    "C22_low_rank_square",
    "C22_low_rank_posterior"
   ],
   "note": ""
  },
  {
   "property": "C23",
   "status": "proved",
   "theorems": [
    "C23_full_low_rank_agree",
    "C23_full_diagonal_agree"
   ],
   "note": ""
  },
  {
   "property": "C24",
   "status": "proved",
   "theorems": [
    "C24_loss_scaling_full_diagonal",
    "C24_loss_scaling_low_rank_wrong"
   ],
   "note": "Finding: the low-rank route divides only the prior part by loss_scaling_factor."
  },
  {
   "property": "C25",
   "status": "proved",
   "theorems": [
    "C25_posterior_over_pytree",
    "C25_posterior_flat",
    "C25_full_end_to_end",
    "C25_diagonal_end_to_end",
    "C25_full_int_layout_refuted"
   ],
   "note": "Finding: the full method with a documented integer layout raises (C25_full_int_layout_refuted)."
  },
  {
   "property": "C26",
   "status": "proved",
   "theorems": [
    "C26_lanczos_total",
    "C26_lanczos_orthonormal_tridiagonal",
    "C26_lanczos_lowrank",
    "C26_get_matvec_dense",
    "C26_get_matvec_no_layout"
   ],
   "note": "eigh is an oracle with the usual contract; exact arithmetic."
  },
  {
   "property": "C27",
   "status": "proved",
   "theorems": [
    "C27_breakdown_repeats",
    "C27_rank_above_dimension_breaks_down",
    "C27_breakdown_overcounts",
    "C27_rank_at_least_dimension_refuted"
   ],
   "note": "Finding: a breakdown repeats the previous basis vector; ranks above the dimension over-count curvature."
  },
  {
   "property": "C28",
   "status": "proved",
   "theorems": [
    "C28_flag_after_lanczos",
    "C28_flag_after_lobpcg",
    "C28_restored_on_exception_refuted",
    "C28_return_precision"
   ],
   "note": "Finding: an exception leaves the process-wide jax_enable_x64 flag changed (C28_restored_on_exception_refuted)."
  },
  {
   "property": "C29",
   "status": "proved",
   "theorems": [
    "C29_rank_clipping",
    "C29_clipped_rank_admissible",
    "C29_inadmissible_size_raises",
    "C29_iteration_count",
    "C29_round_limit",
    "C29_key",
    "C29_solver_choice",
    "C29_round_keeps_orthonormal",
    "C29_orthonormalise_and_project",
    "C29_starting_basis",
    "C29_run_ritz_pairs"
   ],
   "note": "Findings: size == 5*rank is not clipped and jax's own check then raises; sizes up to 5 always raise; the clipped rank is passed on as the iteration limit."
  },
  {
   "property": "C30",
   "status": "proved",
   "theorems": [
    "C30_calibration_methods",
    "C30_missing_functions",
    "C30_registration",
    "C30_inherit_or_complete",
    "C30_history",
    "C30_all_or_nothing",
    "C30_builtins_stay",
    "C30_initial_tables",
    "C30_all_or_nothing_refuted"
   ],
   "note": "Finding: an unknown default registers half a method (C30_all_or_nothing_refuted)."
  },
  {
   "property": "C31",
   "status": "proved",
   "theorems": [
    "C31_first_minimiser",
    "C31_outcome",
    "C31_all_failed",
    "C31_least_real_value",
    "C31_log_grid"
   ],
   "note": ""
  },
  {
   "property": "C32",
   "status": "proved",
   "theorems": [
    "C32_stopping_point",
    "C32_visits_all",
    "C32_max_iterations_off_by_one",
    "C32_max_iterations_refuted",
    "C32_patience",
    "C32_optimize_prior_prec",
    "C32_patience_harmless"
   ],
   "note": "Finding: max_iterations m visits m+1 points; the documented default of patience differs from the code."
  },
  {
   "property": "C33",
   "status": "proved",
   "theorems": [
    "C33_finer_bins",
    "C33_one_bin",
    "C33_bin_metrics",
    "C33_proportions",
    "C33_ece_value",
    "C33_ece_le_mce",
    "C33_order_independent"
   ],
   "note": ""
  },
  {
   "property": "C34",
   "status": "proved",
   "theorems": [
    "C34_correctness",
    "C34_top_k_accuracy",
    "C34_no_top_k",
    "C34_accuracy_monotone",
    "C34_top1_is_correctness",
    "C34_cross_entropy_minimal",
    "C34_cross_entropy_one_hot"
   ],
   "note": ""
  },
  {
   "property": "C35",
   "status": "proved",
   "theorems": [
    "C35_brier_value",
    "C35_never_positive",
    "C35_documented_value_refuted"
   ],
   "note": "Finding: the score is negated and divided by the number of classes relative to the documentation (C35_documented_value_refuted)."
  },
  {
   "property": "C36",
   "status": "proved",
   "theorems": [
    "C36_chi_squared",
    "C36_rmse",
    "C36_shape_check",
    "C36_crps_value",
    "C36_crps_positive",
    "C36_crps_monotone",
    "C36_nll_value",
    "C36_nll_best_std",
    "C36_no_shape_check_refuted",
    "C36_change_of_units"
   ],
   "note": "Finding: rmse and chi_squared do not check shapes and broadcast (C36_no_shape_check_refuted)."
  },
  {
   "property": "C37",
   "status": "proved",
   "theorems": [
    "C37_mean_field_1_confidence",
    "C37_mean_field_2_confidence",
    "C37_mean_field_2_covariances",
    "C37_mean_field_0_confidence",
    "C37_order_kept",
    "C37_two_classes_order",
    "C37_class_changes_refuted",
    "C37_mean_field_0_distribution",
    "C37_mean_field_0_value",
    "C37_zero_variance",
    "C37_mean_field_1_range",
    "C37_mean_field_2_diagonal",
    "C37_mean_field_1_equal_variances",
    "C37_two_classes",
    "C37_shift_invariance",
    "C37_mean_field_1_not_normalised_refuted",
    "C37_laplace_bridge_1d_refuted",
    "C37_laplace_bridge_total",
    "C37_laplace_bridge_row_refuted"
   ],
   "note": "Findings: mean_field_1 is not normalised; laplace_bridge raises IndexError on 1-D means and ignores the mean on a single row."
  },
  {
   "property": "C38",
   "status": "proved",
   "theorems": [
    "C38_full_value",
    "C38_diagonal_agrees_with_full",
    "C38_low_rank_log_determinant",
    "C38_low_rank_unit_precision",
    "C38_low_rank_refuted",
    "C38_noise_key_refuted",
    "C38_cross_entropy_not_scalar_refuted",
    "C38_errors",
    "C38_over_pytrees",
    "C38_over_pytrees_losses"
   ],
   "note": "Findings: the low-rank log-determinant is wrong for prior precision other than 1; the noise level is read from another key; cross_entropy gives an array."
  },
  {
   "property": "C39",
   "status": "proved",
   "theorems": [
    "C39_special_variance",
    "C39_special_covariance",
    "C39_special_unknown",
    "C39_lin_statistics",
    "C39_report_consistent",
    "C39_several_axes_refuted",
    "C39_setup_required"
   ],
   "note": "Finding: for outputs with two or more axes variance after covariance raises ValueError (C39_several_axes_refuted)."
  },
  {
   "property": "C40",
   "status": "proved",
   "theorems": [
    "C40_lin_samples",
    "C40_sample_covariance",
    "C40_default_list_refuted",
    "C40_default_list_axes_refuted",
    "C40_options_invisible",
    "C40_mc_pred_act"
   ],
   "note": "Findings: the default list with num_samples=0 ends in KeyError; with two or more output axes in ValueError."
  },
  {
   "property": "C41",
   "status": "proved",
   "theorems": [
    "C41_ensemble_statistics",
    "C41_order_dependence_refuted",
    "C41_divisor_cases",
    "C41_samples_truncated_refuted",
    "C41_mc_pred_act",
    "C41_special_fallback_refuted",
    "C41_special_covariance"
   ],
   "note": "Findings: variance uses divisor N or N-1 depending on the order of the functions; at most five samples are returned; the variance fallback of the closed-form predictives raises KeyError for ensembles."
  },
  {
   "property": "C42",
   "status": "proved",
   "theorems": [
    "C42_kernel_mv",
    "C42_kernel_dense",
    "C42_dense_needs_layout",
    "C42_symmetric_psd"
   ],
   "note": ""
  },
  {
   "property": "C43",
   "status": "proved",
   "theorems": [
    "C43_finalize_fns_left_to_right",
    "C43_finalize_fns_first_exception",
    "C43_apply_fns_not_callable",
    "C43_apply_fns_arguments_and_frame",
    "C43_apply_fns_unknown_argument",
    "C43_apply_fns_wrong_number_of_names",
    "C43_apply_fns_bad_field",
    "C43_apply_fns_bad_field_unnoticed",
    "C43_apply_fns_no_kwargs_whole_aux",
    "C43_apply_fns_no_kwargs_aux_feeds_forward",
    "C43_apply_fns_duplicate_keyword",
    "C43_transfer_entry_bad_field",
    "C43_transfer_entry_copies",
    "C43_transfer_entry_copies_to_aux",
    "C43_transfer_entry_same_dict_swap_refuted",
    "C43_transfer_entry_same_dict"
   ],
   "note": "Findings: copies within one dictionary are sequential (a swap is not a swap); a bad field goes unnoticed when there are no functions."
  },
  {
   "property": "C44",
   "status": "proved",
   "theorems": [
    "C44_generator_equals_dataset",
    "C44_generator_of_points_equals_dataset",
    "C44_empty_generator",
    "C44_no_metrics",
    "C44_metrics_dict_values",
    "C44_caller_list_extended",
    "C44_metrics_accumulate_over_calls",
    "C44_evaluate_on_dataset"
   ],
   "note": "Finding: the caller's metrics list is extended in place, so repeated calls accumulate metrics."
  },
  {
   "property": "C45",
   "status": "proved",
   "theorems": [
    "C45_lower_spec",
    "C45_case_insensitive",
    "C45_convert_accepts",
    "C45_convert_rejects",
    "C45_members_accepted",
    "C45_foreign_member",
    "C45_laplace_custom_curvature_refuted",
    "C45_none_spelling",
    "C45_none_upper_case_refuted"
   ],
   "note": "Findings: laplace() cannot use registered curvatures; predictive type \"NONE\" in upper case counts as classification."
  },
  {
   "property": "C46",
   "status": "proved",
   "theorems": [
    "C46_objective_table",
    "C46_missing_arguments",
    "C46_pushforward_table",
    "C46_other_keywords_ignored",
    "C46_calibration_first_minimiser",
    "C46_calibration_searches_whole_grid",
    "C46_calibration_needs_one_batch",
    "C46_calibration_method_lookup",
    "C46_grid_search_replaced"
   ],
   "note": "Finding: max_iterations is not forwarded by calibration()."
  },
  {
   "property": "C47",
   "status": "proved",
   "theorems": [
    "C47_single_batch",
    "C47_loader",
    "C47_loader_of_one_batch",
    "C47_invalid_data",
    "C47_empty_loader",
    "C47_mixed_loader",
    "C47_list_is_a_loader",
    "C47_iterator_first_batch_lost",
    "C47_iterator_with_transform",
    "C47_iterator_unusable_for_ggn",
    "C47_loader_usable_for_ggn",
    "C47_laplace_zero_total",
    "C47_evaluation_loader_equals_batch",
    "C47_evaluation_iterator_first_batch_lost",
    "C47_evaluation_iterator_single_batch",
    "C47_evaluation_empty_loader"
   ],
   "note": "Findings: one-shot iterators lose their first batch; an empty loader raises StopIteration; [x, y] is a loader for laplace but a batch for evaluation."
  },
  {
   "property": "C48",
   "status": "proved",
   "theorems": [
    "C48_resolve_table",
    "C48_regression_defaults",
    "C48_regression_missing",
    "C48_regression_plain",
    "C48_classification_refuted",
    "C48_loader_needs_kwargs"
   ],
   "note": "Finding: the default classification metrics always raise TypeError; metric functions without **kwargs fail on loaders."
  },
  {
   "property": "C49",
   "status": "proved",
   "theorems": [
    "C49_custom_loss_ggn",
    "C49_custom_loss_predictive",
    "C49_tree_ggn",
    "C49_missing_loss",
    "C49_targets_ignored",
    "C49_laplace_posterior",
    "C49_laplace_predictive",
    "C49_laplace_samples",
    "C49_matrix_form"
   ],
   "note": ""
  },
  {
   "property": "C50",
   "status": "proved",
   "theorems": [
    "C50_lanczos_more_data_refuted",
    "C50_diagonal_minibatch_subsets",
    "C50_diagonal_minibatch_epoch",
    "C50_minibatch_draws",
    "C50_diagonal_minibatch_draws",
    "C50_minibatch_subsets",
    "C50_minibatch_epoch",
    "C50_uncertainty_monotone",
    "C50_prior_precision",
    "C50_more_data",
    "C50_below_prior",
    "C50_loss_scaling",
    "C50_diagonal_monotone",
    "C50_diagonal_more_data",
    "C50_diagonal_loss_scaling",
    "C50_lanczos_monotone"
   ],
   "note": "sigma_squared multiplies the curvature, so a larger 'noise' shrinks the uncertainty. Finding: with a truncated Lanczos approximation an added data point can raise a reported variance (C50_lanczos_more_data_refuted)."
  },
  {
   "property": "C51",
   "status": "proved",
   "theorems": [
    "C51_sqrt",
    "C51_ones_zeros_like",
    "C51_invert_refuted",
    "C51_partialmatvec",
    "C51_partialmatvec_mismatch",
    "C51_allclose",
    "C51_allclose_symmetric_refuted",
    "C51_statistics",
    "C51_covariance",
    "C51_unravel",
    "C51_unravel_rejects",
    "C51_unravel_vector"
   ],
   "note": "Findings: tree.invert is bitwise NOT (TypeError on floats); allclose is not symmetric. unravel_array_into_pytree is covered for every array, every axis (any Python int) and every layout."
  },
  {
   "property": "C52",
   "status": "proved",
   "theorems": [
    "C52_nll_objective",
    "C52_chi2_objective",
    "C52_ece_objective",
    "C52_nll_classification",
    "C52_one_hot_targets_refuted",
    "C52_ece_mean_field_0",
    "C52_laplace_bridge_refuted",
    "C52_ece_needs_pred_act",
    "C52_nonlinear_mc_bridge_refuted",
    "C52_mll_objective"
   ],
   "note": "Findings: classification NLL compares logits with one-hot labels as Gaussians; one-hot targets always raise; ECE takes correctness from the MAP; nonlinear mc_bridge ECE never has a value; laplace_bridge always raises."
  },
  {
   "property": "C53",
   "status": "proved",
   "theorems": [
    "C53_marginal_likelihood_patience",
    "C53_calibrated_regression",
    "C53_one_hot_targets_refuted",
    "C53_calibrated_marginal_likelihood"
   ],
   "note": "Finding: one-hot targets silently select the smallest grid point."
  },
  {
   "property": "C54",
   "status": "proved",
   "theorems": [
    "C54_samples",
    "C54_diagonal_posterior",
    "C54_lanczos_posterior",
    "C54_predictive",
    "C54_diagonal_predictive",
    "C54_diagonal_understates",
    "C54_lanczos_predictive",
    "C54_lanczos_full_rank"
   ],
   "note": "Lanczos theorems assume no breakdown and a correct eigh; full-rank agreement holds only at loss_scaling_factor 1 because of C24."
  },
  {
   "property": "C55",
   "status": "proved",
   "theorems": [
    "C55_full",
    "C55_diagonal",
    "C55_lanczos",
    "C55_lobpcg",
    "C55_batching_invisible",
    "C55_iterator",
    "C55_zero_total",
    "C55_unknown_approximation",
    "C55_unknown_loss"
   ],
   "note": "LOBPCG theorem is conditional on the solver returning orthonormal vectors with non-negative values (C29_run_ritz_pairs gives this for regular mv_jit=False runs); Lanczos as in C54. Finding: one-shot iterators are never usable."
  },
  {
   "property": "C56",
   "status": "proved",
   "theorems": [
    "C56_affine_evidence",
    "C56_ggn_evidence",
    "C56_default_noise_refuted"
   ],
   "note": "Finding: the default noise settings mix two noise levels (data term: variance 1; determinant: variance 1/2), so the marginal-likelihood objective of calibration is not the evidence even for linear models."
  },
  {
   "property": "C57",
   "status": "proved",
   "theorems": [
    "C57_batched_ggn",
    "C57_batched_custom_loss",
    "C57_batched_cross_entropy_refuted",
    "C57_batched_one_class_refuted",
    "C57_batched_loss",
    "C57_batched_marginal_likelihood"
   ],
   "note": "Finding: cross_entropy cannot be used with vmap_over_data=False (TypeError with two or more classes; wrong sign with one)."
  },
  {
   "property": "C58",
   "status": "proved",
   "theorems": [
    "C58_density",
    "C58_crps",
    "C58_crps_absolute_error",
    "C58_nll_proper",
    "C58_chi_squared_expectation"
   ],
   "note": ""
  },
  {
   "property": "C59",
   "status": "proved",
   "theorems": [
    "C59_gp_kernel",
    "C59_exact_posterior",
    "C59_exact_predictive"
   ],
   "note": "The noise variance must be passed as sigma_squared = 1/(2 f s) because the GGN of mse is 2 J^T J; C59_gp_kernel holds for every model, the exactness theorems for affine ones."
  },
  {
   "property": "C60",
   "status": "proved",
   "theorems": [
    "C60_posterior_samples",
    "C60_diagonal_samples",
    "C60_lanczos_samples",
    "C60_linear_samples",
    "C60_affine_ensemble",
    "C60_laplace_samples"
   ],
   "note": "The randomness is an arbitrary linear normalised functional on functions of the key under which the draws of randn_like have mean 0, variance 1 and are uncorrelated; that jax.random.normal behaves so is trusted."
  },
  {
   "property": "C61",
   "status": "proved",
   "theorems": [
    "C61_options_invisible",
    "C61_unknown_ignored",
    "C61_n_samples_refuted",
    "C61_precompute_refuted",
    "C61_parameter_names",
    "C61_kernel_keywords",
    "C61_kernel_array_layout_refuted",
    "C61_kernel_container_layout",
    "C61_kernel_empty_layout",
    "C61_keyword_wins"
   ],
   "note": "Findings: the keyword precompute can never be used; n_samples, documented for set_lin_pushforward, is ignored; an array of two or more entries as output_layout of a dense kernel is a ValueError. Dictionary values of undocumented types are left out of the model."
  },
  {
   "property": "C62",
   "status": "proved",
   "theorems": [
    "C62_affine_agreement",
    "C62_laplace_ensemble",
    "C62_unbiased"
   ],
   "note": "Affine models: agreement of the two routes draw by draw; unbiasedness under an expectation functional over keys with uncorrelated standard draws."
  },
  {
   "property": "C63",
   "status": "proved",
   "theorems": [
    "C63_ritz_pairs",
    "C63_eigenpairs_conservative",
    "C63_lanczos_posterior",
    "C63_lanczos_conservative_refuted",
    "C63_dropping_pairs",
    "C63_diagonal_either_way",
    "C63_diagonal_evidence",
    "C63_ritz_evidence"
   ],
   "note": "Finding: a truncated Lanczos posterior can claim more certainty than the full one in a parameter (C63_lanczos_conservative_refuted). Stated at loss scaling factor 1, because the low-rank route scales only the prior part (C24), and the low-rank evidence at prior precision 1 (C38)."
  },
  {
   "property": "C64",
   "status": "proved",
   "theorems": [
    "C64_full_reparametrisation",
    "C64_diagonal_reordering",
    "C64_full_reordering",
    "C64_data_order",
    "C64_evidence",
    "C64_diagonal_rotation_refuted"
   ],
   "note": "A reparametrisation is given by how the Jacobians are related (J2 = J1 Q on the training inputs and the test input); chain rule for the model functions themselves is not modelled."
  },
  {
   "property": "C65",
   "status": "proved",
   "theorems": [
    "C65_training_variance",
    "C65_repeated_observations",
    "C65_unseen_directions",
    "C65_prior_away_from_data",
    "C65_squared_error",
    "C65_binary_cross_entropy",
    "C65_softmax_shift",
    "C65_total_training_variance"
   ],
   "note": ""
  },
  {
   "property": "C66",
   "status": "proved",
   "theorems": [
    "C66_prior_precision",
    "C66_grid_neighbours",
    "C66_best_precision",
    "C66_fixed_point",
    "C66_fixed_point_unique",
    "C66_unique_optimum",
    "C66_large_precision",
    "C66_zero_parameters",
    "C66_unimodal",
    "C66_strictly_unimodal",
    "C66_grid_bracket",
    "C66_patience",
    "C66_noise_optimum_refuted",
    "C66_loss_scaling_optimum_refuted",
    "C66_curvature_scale",
    "C66_average_curvature",
    "C66_minibatch_curvature"
   ],
   "note": "Finding: the log marginal likelihood has no optimum in the noise level sigma (its normalising constant is missing) nor in the loss scaling factor."
  }
 ]
}