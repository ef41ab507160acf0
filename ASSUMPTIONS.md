# What `Print Assumptions` lists for each property theorem

Generated by `tools/assumptions.py` from a finished build.

## Closed under the global context (no axioms) — 243 theorems

`C01_flatten_unflatten`, `C01_unflatten_flatten`, `C02_no_leaves`, `C02_unflatten_length`, `C03_partial_roundtrip`, `C03_partial_unflatten_flatten`, `C03_zero_dim_raises`, `C04_basis_vector`, `C04_basis_vector_out_of_range`, `C04_eye_like`, `C05_flatten_function`, `C05_negative_argnums_refuted`, `C05_wrap_argnums_out_of_range`, `C05_wrap_factory`, `C05_wrap_function`, `C05_wrap_twice`, `C06_add_structure_mismatch`, `C06_add_sub`, `C06_neg_mul`, `C06_normal_like`, `C07_tree_matvec`, `C08_diagonal_dense`, `C08_diagonal_int`, `C08_diagonal_needs_layout`, `C08_diagonal_tree`, `C08_linear`, `C09_linear_determined`, `C09_linear_is_matrix`, `C09_linear_recovers`, `C09_to_dense_int`, `C09_to_dense_none_layout`, `C09_to_dense_tree`, `C10_batch_error`, `C10_empty_loader`, `C10_reduce_add`, `C10_reduce_add_partition`, `C10_reduce_sum`, `C11_online_mean`, `C11_online_mean_state`, `C11_scalar_results`, `C12_concat_batching_invisible`, `C12_reduce_concat`, `C13_call_is_sum`, `C13_default_reduce_refuted`, `C13_diagonal`, `C13_to_dense`, `C13_wrap`, `C13_wrap_keeps_original`, `C13_wrap_none`, `C13_wrap_twice`, `C14_precompute_list`, `C14_precompute_off`, `C14_str_to_bool`, `C20_full_posterior`, `C20_missing_prior_prec`, `C20_scale_correct`, `C20_scale_exists_iff_spd`, `C20_scale_symmetrises`, `C21_applicable`, `C21_diagonal_posterior`, `C22_low_rank_mv_dense`, `C22_low_rank_posterior`, `C22_low_rank_square`, `C23_full_diagonal_agree`, `C23_full_low_rank_agree`, `C24_loss_scaling_full_diagonal`, `C24_loss_scaling_low_rank_wrong`, `C25_diagonal_end_to_end`, `C25_full_end_to_end`, `C25_full_int_layout_refuted`, `C25_posterior_flat`, `C25_posterior_over_pytree`, `C26_get_matvec_dense`, `C26_get_matvec_no_layout`, `C26_lanczos_lowrank`, `C26_lanczos_orthonormal_tridiagonal`, `C26_lanczos_total`, `C27_breakdown_overcounts`, `C27_breakdown_repeats`, `C27_rank_above_dimension_breaks_down`, `C27_rank_at_least_dimension_refuted`, `C28_flag_after_lanczos`, `C28_flag_after_lobpcg`, `C28_restored_on_exception_refuted`, `C28_return_precision`, `C29_clipped_rank_admissible`, `C29_inadmissible_size_raises`, `C29_iteration_count`, `C29_key`, `C29_orthonormalise_and_project`, `C29_rank_clipping`, `C29_round_keeps_orthonormal`, `C29_round_limit`, `C29_run_ritz_pairs`, `C29_solver_choice`, `C29_starting_basis`, `C30_all_or_nothing`, `C30_all_or_nothing_refuted`, `C30_builtins_stay`, `C30_calibration_methods`, `C30_history`, `C30_inherit_or_complete`, `C30_initial_tables`, `C30_missing_functions`, `C30_registration`, `C31_all_failed`, `C31_first_minimiser`, `C31_outcome`, `C32_max_iterations_off_by_one`, `C32_max_iterations_refuted`, `C32_patience`, `C32_patience_harmless`, `C32_stopping_point`, `C32_visits_all`, `C33_bin_metrics`, `C33_ece_le_mce`, `C33_ece_value`, `C33_finer_bins`, `C33_one_bin`, `C33_order_independent`, `C33_proportions`, `C34_accuracy_monotone`, `C34_correctness`, `C34_no_top_k`, `C34_top1_is_correctness`, `C34_top_k_accuracy`, `C35_brier_value`, `C35_documented_value_refuted`, `C35_never_positive`, `C37_laplace_bridge_1d_refuted`, `C39_lin_statistics`, `C39_report_consistent`, `C39_setup_required`, `C39_several_axes_refuted`, `C39_special_covariance`, `C39_special_unknown`, `C39_special_variance`, `C40_default_list_axes_refuted`, `C40_default_list_refuted`, `C40_lin_samples`, `C40_mc_pred_act`, `C40_options_invisible`, `C40_sample_covariance`, `C41_divisor_cases`, `C41_ensemble_statistics`, `C41_mc_pred_act`, `C41_order_dependence_refuted`, `C41_samples_truncated_refuted`, `C41_special_covariance`, `C41_special_fallback_refuted`, `C42_dense_needs_layout`, `C42_kernel_dense`, `C42_kernel_mv`, `C42_symmetric_psd`, `C43_apply_fns_arguments_and_frame`, `C43_apply_fns_bad_field`, `C43_apply_fns_bad_field_unnoticed`, `C43_apply_fns_duplicate_keyword`, `C43_apply_fns_no_kwargs_aux_feeds_forward`, `C43_apply_fns_no_kwargs_whole_aux`, `C43_apply_fns_not_callable`, `C43_apply_fns_unknown_argument`, `C43_apply_fns_wrong_number_of_names`, `C43_finalize_fns_first_exception`, `C43_finalize_fns_left_to_right`, `C43_transfer_entry_bad_field`, `C43_transfer_entry_copies`, `C43_transfer_entry_copies_to_aux`, `C43_transfer_entry_same_dict`, `C43_transfer_entry_same_dict_swap_refuted`, `C44_caller_list_extended`, `C44_empty_generator`, `C44_evaluate_on_dataset`, `C44_generator_equals_dataset`, `C44_generator_of_points_equals_dataset`, `C44_metrics_accumulate_over_calls`, `C44_metrics_dict_values`, `C44_no_metrics`, `C45_case_insensitive`, `C45_convert_accepts`, `C45_convert_rejects`, `C45_foreign_member`, `C45_laplace_custom_curvature_refuted`, `C45_lower_spec`, `C45_members_accepted`, `C45_none_spelling`, `C45_none_upper_case_refuted`, `C46_missing_arguments`, `C46_objective_table`, `C46_pushforward_table`, `C47_empty_loader`, `C47_evaluation_empty_loader`, `C47_evaluation_iterator_first_batch_lost`, `C47_evaluation_iterator_single_batch`, `C47_evaluation_loader_equals_batch`, `C47_invalid_data`, `C47_iterator_first_batch_lost`, `C47_iterator_unusable_for_ggn`, `C47_iterator_with_transform`, `C47_laplace_zero_total`, `C47_list_is_a_loader`, `C47_loader`, `C47_loader_of_one_batch`, `C47_loader_usable_for_ggn`, `C47_mixed_loader`, `C47_single_batch`, `C48_classification_refuted`, `C48_loader_needs_kwargs`, `C48_regression_defaults`, `C48_regression_missing`, `C48_regression_plain`, `C48_resolve_table`, `C49_missing_loss`, `C51_allclose`, `C51_allclose_symmetric_refuted`, `C51_covariance`, `C51_invert_refuted`, `C51_ones_zeros_like`, `C51_partialmatvec`, `C51_partialmatvec_mismatch`, `C51_sqrt`, `C51_statistics`, `C51_unravel`, `C51_unravel_rejects`, `C51_unravel_vector`, `C60_affine_ensemble`, `C60_linear_samples`, `C61_kernel_array_layout_refuted`, `C61_kernel_container_layout`, `C61_kernel_empty_layout`, `C61_kernel_keywords`, `C61_n_samples_refuted`, `C61_options_invisible`, `C61_parameter_names`, `C61_precompute_refuted`, `C61_unknown_ignored`, `C62_affine_agreement`, `C63_diagonal_either_way`, `C63_dropping_pairs`, `C63_eigenpairs_conservative`, `C63_lanczos_conservative_refuted`, `C63_lanczos_posterior`, `C63_ritz_pairs`

## Axioms: `ClassicalDedekindReals.sig_forall_dec` — 1 theorems

`C46_grid_search_replaced`

## Axioms: `ClassicalDedekindReals.sig_forall_dec`, `ClassicalDedekindReals.sig_not_dec`, `Classical_Prop.classic`, `FunctionalExtensionality.functional_extensionality_dep` — 8 theorems

`C31_least_real_value`, `C31_log_grid`, `C32_optimize_prior_prec`, `C46_calibration_first_minimiser`, `C46_calibration_method_lookup`, `C46_calibration_needs_one_batch`, `C46_calibration_searches_whole_grid`, `C46_other_keywords_ignored`

## Axioms: `ClassicalDedekindReals.sig_forall_dec`, `ClassicalEpsilon.constructive_indefinite_description`, `Classical_Prop.classic`, `FunctionalExtensionality.functional_extensionality_dep` — 1 theorems

`C36_chi_squared`

## Axioms: `ClassicalDedekindReals.sig_forall_dec`, `ClassicalDedekindReals.sig_not_dec`, `ClassicalEpsilon.constructive_indefinite_description`, `Classical_Prop.classic`, `FunctionalExtensionality.functional_extensionality_dep` — 191 theorems

`C15_ggn_custom_hessian`, `C15_ggn_formula`, `C15_ggn_linear_symmetric_psd`, `C15_ggn_without_data_linear_symmetric_psd`, `C16_ggn_batches`, `C16_ggn_default_counts`, `C16_ggn_one_count`, `C16_ggn_scaling`, `C16_ggn_split`, `C16_hessian_minibatch`, `C16_hessian_split`, `C16_laplace_factor`, `C16_laplace_minibatch`, `C16_laplace_scales_like_create_ggn_mv_refuted`, `C16_minibatch_with_replacement`, `C16_minibatch_without_replacement`, `C17_binary_cross_entropy`, `C17_cross_entropy`, `C17_cross_entropy_kernel`, `C17_custom_loss`, `C17_hvp_unique`, `C17_mse`, `C17_symmetric_psd`, `C18_affine_any_loss`, `C18_chain_rule_binary_cross_entropy`, `C18_chain_rule_cross_entropy`, `C18_chain_rule_mse`, `C18_gauss_newton`, `C18_gauss_newton_any_loss`, `C18_ggn_is_hessian`, `C18_ggn_is_second_derivative`, `C18_hessian_psd_refuted`, `C18_interpolation`, `C19_exactly_one_loss`, `C19_hessian_cross_entropy_unusable`, `C19_hessian_loss_names`, `C19_hessian_supports_all_losses_refuted`, `C19_loss_names`, `C19_one_loss_accepted`, `C19_without_data_prefers_hessian`, `C34_cross_entropy_minimal`, `C34_cross_entropy_one_hot`, `C36_change_of_units`, `C36_crps_monotone`, `C36_crps_positive`, `C36_crps_value`, `C36_nll_best_std`, `C36_nll_value`, `C36_no_shape_check_refuted`, `C36_rmse`, `C36_shape_check`, `C37_class_changes_refuted`, `C37_laplace_bridge_row_refuted`, `C37_laplace_bridge_total`, `C37_mean_field_0_confidence`, `C37_mean_field_0_distribution`, `C37_mean_field_0_value`, `C37_mean_field_1_confidence`, `C37_mean_field_1_equal_variances`, `C37_mean_field_1_not_normalised_refuted`, `C37_mean_field_1_range`, `C37_mean_field_2_confidence`, `C37_mean_field_2_covariances`, `C37_mean_field_2_diagonal`, `C37_order_kept`, `C37_shift_invariance`, `C37_two_classes`, `C37_two_classes_order`, `C37_zero_variance`, `C38_cross_entropy_not_scalar_refuted`, `C38_diagonal_agrees_with_full`, `C38_errors`, `C38_full_value`, `C38_low_rank_log_determinant`, `C38_low_rank_refuted`, `C38_low_rank_unit_precision`, `C38_noise_key_refuted`, `C38_over_pytrees`, `C38_over_pytrees_losses`, `C49_custom_loss_ggn`, `C49_custom_loss_predictive`, `C49_laplace_posterior`, `C49_laplace_predictive`, `C49_laplace_samples`, `C49_matrix_form`, `C49_targets_ignored`, `C49_tree_ggn`, `C50_below_prior`, `C50_diagonal_loss_scaling`, `C50_diagonal_minibatch_draws`, `C50_diagonal_minibatch_epoch`, `C50_diagonal_minibatch_subsets`, `C50_diagonal_monotone`, `C50_diagonal_more_data`, `C50_lanczos_monotone`, `C50_lanczos_more_data_refuted`, `C50_loss_scaling`, `C50_minibatch_draws`, `C50_minibatch_epoch`, `C50_minibatch_subsets`, `C50_more_data`, `C50_prior_precision`, `C50_uncertainty_monotone`, `C52_chi2_objective`, `C52_ece_mean_field_0`, `C52_ece_needs_pred_act`, `C52_ece_objective`, `C52_laplace_bridge_refuted`, `C52_mll_objective`, `C52_nll_classification`, `C52_nll_objective`, `C52_nonlinear_mc_bridge_refuted`, `C52_one_hot_targets_refuted`, `C53_calibrated_marginal_likelihood`, `C53_calibrated_regression`, `C53_marginal_likelihood_patience`, `C53_one_hot_targets_refuted`, `C54_diagonal_posterior`, `C54_diagonal_predictive`, `C54_diagonal_understates`, `C54_lanczos_full_rank`, `C54_lanczos_posterior`, `C54_lanczos_predictive`, `C54_predictive`, `C54_samples`, `C55_batching_invisible`, `C55_diagonal`, `C55_full`, `C55_iterator`, `C55_lanczos`, `C55_lobpcg`, `C55_unknown_approximation`, `C55_unknown_loss`, `C55_zero_total`, `C56_affine_evidence`, `C56_default_noise_refuted`, `C56_ggn_evidence`, `C57_batched_cross_entropy_refuted`, `C57_batched_custom_loss`, `C57_batched_ggn`, `C57_batched_loss`, `C57_batched_marginal_likelihood`, `C57_batched_one_class_refuted`, `C58_chi_squared_expectation`, `C58_crps`, `C58_crps_absolute_error`, `C58_density`, `C58_nll_proper`, `C59_exact_posterior`, `C59_exact_predictive`, `C59_gp_kernel`, `C60_diagonal_samples`, `C60_lanczos_samples`, `C60_laplace_samples`, `C60_posterior_samples`, `C61_keyword_wins`, `C62_laplace_ensemble`, `C62_unbiased`, `C63_diagonal_evidence`, `C63_ritz_evidence`, `C64_data_order`, `C64_diagonal_reordering`, `C64_diagonal_rotation_refuted`, `C64_evidence`, `C64_full_reordering`, `C64_full_reparametrisation`, `C65_binary_cross_entropy`, `C65_prior_away_from_data`, `C65_repeated_observations`, `C65_softmax_shift`, `C65_squared_error`, `C65_total_training_variance`, `C65_training_variance`, `C65_unseen_directions`, `C66_average_curvature`, `C66_best_precision`, `C66_curvature_scale`, `C66_fixed_point`, `C66_fixed_point_unique`, `C66_grid_bracket`, `C66_grid_neighbours`, `C66_large_precision`, `C66_loss_scaling_optimum_refuted`, `C66_minibatch_curvature`, `C66_noise_optimum_refuted`, `C66_patience`, `C66_prior_precision`, `C66_strictly_unimodal`, `C66_unimodal`, `C66_unique_optimum`, `C66_zero_parameters`
