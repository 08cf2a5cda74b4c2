# What Print Assumptions lists

Written by tools/axioms.py from the output of the `Print Assumptions` under each theorem. All four are axioms of the standard library:

- D: `ClassicalDedekindReals.sig_forall_dec`
- N: `ClassicalDedekindReals.sig_not_dec`
- F: `FunctionalExtensionality.functional_extensionality_dep`
- C: `Classical_Prop.classic`

## D N F (266 theorems)

C04_lagrange_prox_exact, C05_bound_prox_exact, C06_proximal_minimizes, C06_proximal_zero_coef_raises, C07_proximal_negative_refuted, C07_proximal_zero_partial, C08_conjugate_is_fenchel, C09_double_conjugate, C12_feasibility_con_partial, C12_feasibility_maxpos_partial, C12_feasibility_partial, C12_feasibility_refuted, C13_cone_prox_projects, C14_l2_epigraph_axis_refuted, C14_l2_epigraph_interior_refuted, C14_l2_epigraph_partial, C14_l2_epigraph_polar_partial, C15_moreau_l2_refuted, C15_moreau_partial, C15_pairs_polar, C16_maximum_value, C16_simplex_feasibility, C20_cone_conjugate, C20_cone_feasibility, C20_cone_projection, C20_conjugate_pair, C20_construct, C20_dual_zero_weight_refuted, C20_negative_weight_refuted, C20_proximal, C20_set_weight, C20_terms, C20_value, C21_block_bound_refuted, C21_block_construct, C21_block_missing_modes, C21_block_proximal, C21_block_terms_refuted, C21_block_value, C21_construct, C21_construct_rejects, C21_copy, C21_dual_lagrange_refuted, C21_dual_value_refuted, C21_feasibility, C21_missing_modes, C21_prox, C21_proximal, C21_terms, C21_value, C22_block_feasible, C22_block_partial, C22_block_refuted, C22_block_rows, C22_block_terminates, C22_block_terms_partial, C22_block_value, C22_blocks, C22_gauge_partial, C22_gauge_refuted, C22_infinite_refuted, C22_seminorm_partial, C22_strong_partial, C22_strong_refuted, C22_strong_terminates, C22_strong_weight, C22_terminates, C23_bound_routine_refuted, C23_conjugate_pair, C23_dual_value_refuted, C23_feasibility_refuted, C23_offset_refuted, C23_proximal, C23_value_partial, C23_zero_lagrange_refuted, C24_never_worse, C24_trace, C25_cap, C25_history, C25_stop_reason, C25_terminates_without_backtracking, C26_flag_ignored, C26_refuted, C27_ends_refuted, C27_upper_bound, C27_verified_step, C29_normalize, C32_affine, C32_affine_atom_partial, C32_affine_atom_refuted, C32_affine_constraint, C32_dual, C32_linear, C32_shift_partial, C32_shift_refuted, C33_quadratic_partial, C33_quadratic_refuted, C37_hessian_form, C39_atoms, C39_cones, C39_no_loss, C41_affine_parts, C41_atom_parts, C41_cone_parts, C41_direct, C41_quadratic_refuted, C41_selector_refuted, C42_separable, C42_separable_refuted, C50_complement_test_refuted, C50_member_value, C50_objective, C50_rows_test, C52_atoms, C52_cones, C52_conjugate, C52_curved_raises, C52_own, C52_sandwich, C52_smooth_conjugate, C52_smoothed_affine, C52_smoothed_atom, C52_smoothed_cone, C53_bound_prox, C53_cone_objective_partial, C53_cone_prox, C53_cone_proximal, C53_epigraph_refuted, C53_epigraph_test, C53_equality_refuted, C53_feasibility, C53_lagrange_prox, C53_norms, C53_proximal, C53_singular_values, C53_value, C53_values, C53_witness, C54_block_constraint_refuted, C54_conjugate, C54_constrained_rows_refuted, C54_feasibility, C54_generic_refuted, C54_prox, C54_proximal_partial, C54_stale_refuted, C54_value, C54_values, C54_zero_row_refuted, C55_nonsmooth_objective_bound_partial, C55_nonsmooth_objective_lagrange_partial, C55_seminorm_value_con_partial, C55_seminorm_value_partial, C55_seminorm_value_refuted, C56_positive_part_lagrange, C58_group_eq_refuted, C59_cone_conjugate, C59_cone_proximal_partial, C60_exact_acceptance_set, C60_feasible_accepted, C60_objective, C64_intercept, C64_normalized_columns, C65_power_L_partial, C65_power_L_refuted, C66_hessian_partial, C69_converged, C69_null_step, C70_complete, C70_ranks, C70_sound, C70_strong, C70_subsample, C71_accepted, C71_ends_partial, C71_exact, C71_free_refuted, C71_optimal, C71_worse_refuted, C72_accepted, C72_complete_refuted, C72_flat_refuted, C72_free_refuted, C72_ridge_refuted, C72_sound_refuted, C72_strong, C72_subsample_refuted, C72_unpenalized_refuted, C73_rows, C75_matrix, C77_history_partial, C77_lipschitz_refuted, C77_operator_partial, C77_rank_refuted, C77_round_trip, C77_zero_refuted, C80_proba_partial, C80_proba_refuted, C83_complete, C83_direction_refuted, C83_infeasible_refuted, C83_length, C83_meaning, C83_sound_partial, C83_tolerance_refuted, C83_unpenalized_refuted, C84_length, C84_meaning, C84_safe_partial, C84_weights_refuted, C85_accuracy_partial, C85_candidates, C85_checked, C85_columns_refuted, C85_df_refuted, C85_elastic_net_refuted, C85_short, C85_total, C85_warning_refuted, C86_max_first, C86_meaning, C86_nothing, C86_null_first, C86_order_refuted, C86_positive_part_refuted, C86_smallest_partial, C87_complete_refuted, C87_flat_refuted, C87_sound_refuted, C87_strong, C88_accepted, C88_l1_alpha_refuted, C88_subsample_refuted, C88_weights_refuted, C89_answer, C89_end, C89_group, C89_group_null, C89_group_solver, C89_lasso, C89_lasso_null, C89_lasso_solver, C89_rows, C89_rows_solver, C89_sparse, C89_sparse_solver, C90_calls, C90_group, C90_lasso, C90_losses, C90_minimizes, C90_offset_refuted, C90_rows, C90_sparse, C90_tol_refuted, C91_fixed, C91_round_value, C92_closer, C92_empty_refuted, C92_fixed, C92_momentum_refuted, C92_offset_refuted, C92_prox, C92_rounds, C92_stop_value_partial, C92_value

## D N C F (226 theorems)

C21_block_conjugate, C21_block_dual_conjugate, C21_block_dual_proximal, C21_conjugate, C21_dual_conjugate, C21_dual_proximal, C22_block_witness, C22_terms_partial, C24_exact_problem, C25_terminates, C27_ends_partial, C27_step_lower_bound, C27_terminates, C28_minimizer_is_fixed_point, C28_stays, C33_cloglog_offset_refuted, C33_cloglog_refuted, C33_gradient_partial, C33_huber_svm_refuted, C33_logistic_overflow, C33_logistic_threshold_refuted, C33_modes, C33_value, C34_cloglog_partial, C34_cloglog_refuted, C34_convex, C34_logistic, C34_tangent_partial, C35_history_partial, C35_loss_history, C35_weights_refuted, C36_constant_refuted, C36_copy_partial, C36_copy_total, C36_glm_copy_partial, C36_glm_subsample_partial, C36_huber_weights_refuted, C36_subsample_partial, C37_alias_refuted, C37_coef_refuted, C37_convex, C37_gradient, C37_hessian, C37_hessian_mult_partial, C37_nan, C37_object, C37_subsample_refuted, C37_value, C38_affine_partial, C38_cloglog_refuted, C38_gradient, C38_linear, C38_shift, C38_squared_error, C38_sum, C38_tangent, C38_value, C39_affine_refuted, C39_container_solver, C39_container_value, C39_simple_solver, C39_simple_value, C39_smooth_partial, C39_smooth_solver, C39_sum_refuted, C40_container_refuted, C40_container_returns, C40_raise_refuted, C40_simple, C40_simple_accuracy_partial, C40_simple_returns, C40_smooth_partial, C40_smooth_refuted, C41_container_partial, C41_default_partial, C41_dual_problem, C41_run_partial, C41_run_rejecting_partial, C43_converges_partial, C43_iteration, C43_loss_update_partial, C43_quadratic_refuted, C43_refuted, C43_round_partial, C43_solve, C43_stays_partial, C45_lambda_max, C45_lambda_max_sharp, C45_one_step_refuted, C45_sequence, C48_one_fold, C48_training_loss, C53_cone_conjugate, C53_conjugate, C53_svd_exists, C63_rate_partial, C63_since_rejection_partial, C66_cloglog_partial, C66_cloglog_refuted, C66_glm_offset_refuted, C66_glm_partial, C66_offset_refuted, C66_overflow_refuted, C67_fixed_point_partial, C67_refuted, C68_accepts, C69_goes_on, C69_inner, C69_objective, C69_quadratic_refuted, C69_run, C69_stops, C69_zero_refuted, C70_lambda_max, C70_lambda_max_sharp, C70_sequence, C72_complete_partial, C72_null_complete_partial, C72_null_sound_partial, C72_optimal, C72_sound_partial, C73_clip_gradient, C73_clip_refuted, C73_constructor, C73_convex_refuted, C73_deviance, C73_gradient_partial, C73_shift, C73_subsample_refuted, C73_tangent_partial, C73_two_categories, C73_value_partial, C73_weighted_refuted, C73_weights_refuted, C74_chain, C74_chain_gradient, C74_chain_subsample_refuted, C74_chain_weights_refuted, C74_compounds, C74_decays_refuted, C74_history, C74_model_history, C74_multinomial, C74_multiresponse, C74_own_weights_refuted, C74_returned_refuted, C74_stack, C74_stack_gradient, C75_history, C75_reachable, C75_smuce, C75_smuce_changes_refuted, C75_smuce_scaling_refuted, C77_iteration_exists, C78_cloglog_offset_refuted, C78_fit_logistic, C78_fit_partial, C78_fitted_loss, C78_lagrange_fit_partial, C78_one_row_refuted, C78_quadratic_refuted, C79_R2, C79_R2_cloglog_refuted, C79_R2_gaussian, C79_R2_logistic, C79_R2_one_class, C79_R2_weights_refuted, C79_again_refuted, C79_cox, C79_cox_R2_refuted, C79_deviance, C79_effect, C79_history, C79_mean_deviance_partial, C79_mean_deviance_refuted, C79_sample_ignored_refuted, C79_spoils_refuted, C80_accuracy, C80_accuracy_refuted, C80_cloglog_labels_refuted, C80_cloglog_proba, C80_logistic_proba, C80_only_accuracy, C80_proba_square_refuted, C80_unfitted, C81_accepts, C81_caller_refuted, C81_convex_partial, C81_convex_refuted, C81_copy, C81_copy_total, C81_fisher_partial, C81_gradient_partial, C81_gradient_refuted, C81_hessian_refuted, C81_history, C81_modes, C81_normal_exists, C81_offset_refuted, C81_subsample, C81_tangent_partial, C81_value_partial, C81_value_refuted, C82_constant_refuted, C82_rejected_refuted, C86_sequence, C87_complete_partial, C87_small_refuted, C87_sound_partial, C88_lambda_max_partial, C88_lambda_max_refuted, C88_near_partial, C88_optimal, C91_closer, C91_empty_refuted, C91_end_partial, C91_momentum_refuted, C91_problem, C91_quadratic_refuted, C91_rises, C91_rounds, C91_stop_value, C91_stops, C91_value_end_partial, C91_values, C92_stops

## D F (166 theorems)

C01_value_and_gradient, C02_add_none_other, C02_add_partial, C02_collapsed_partial, C02_collapsed_refuted, C02_recenter_partial, C02_recenter_refuted, C03_conjugate_fenchel, C03_conjugate_involutive_partial, C03_conjugate_involutive_refuted, C10_constructor, C10_negative_refuted, C10_none_refuted, C11_slope_one, C11_slope_zero, C11_unconstrained, C11_weighted_partial, C16_conjugate_pair, C16_maximum_prox, C16_proximal, C16_simplex_projection, C17_isotonic_regression, C17_pav, C18_conjugate_pair, C18_construct, C18_dual_norm_exists, C18_feasibility, C18_lagrange_prox, C18_objective, C18_other_modes_raise, C18_proximal, C18_shipped_isotonic, C18_values, C19_conjugate_pair, C19_construct, C19_degenerate_modes_refuted, C19_feasibility, C19_l1_bound_prox, C19_l1_lagrange_prox, C19_proximal_partial, C19_sup_bound_prox, C19_sup_lagrange_prox, C19_sup_zero_weight_refuted, C19_tiny_weight_refuted, C19_value, C21_block_copy, C28_fixed_point_is_minimizer, C28_step_descends, C29_adjoint_partial, C29_aslinear_refuted, C29_selector_repeated_refuted, C30_affine, C30_affine_sum_refuted, C30_composition_refuted, C30_offset_partial, C30_residual_refuted, C30_scalar_multiply_refuted, C30_wrap_refuted, C31_corrupted_refuted, C31_posneg_refuted, C31_selector_refuted, C31_selector_same_array_refuted, C31_stable_partial, C31_value_partial, C32_linear_offset, C32_nested_refuted, C38_sum_accepts, C40_nonsmooth, C43_atom_update, C43_fixed_point, C43_saddle, C43_shape_refuted, C44_convex, C44_formula, C44_history, C44_initial, C44_raises, C44_refuted, C44_update, C45_complete, C45_gradient, C45_ranks, C45_ranks_order, C45_refuted, C45_sound_partial, C46_accepted, C46_ends_partial, C46_exact, C46_optimal, C46_refuted, C47_checked_partial, C47_refuted, C47_worse_refuted, C48_score, C49_candidates, C49_endless_refuted, C49_ends_partial, C49_optimal, C49_order_partial, C49_refuted, C50_conjugate_refuted, C50_copy, C50_objective_witness, C50_projects, C50_sum, C51_divided_differences, C51_inverse_adjoint_2d_refuted, C51_inverse_order, C51_inverse_partial, C51_inverse_unsorted_refuted, C51_polynomials, C51_too_high, C52_needs_curvature, C53_cone_conjugate_refuted, C53_cone_copy, C53_cone_witness, C53_construct, C53_copy, C54_construct, C54_copy, C54_stale, C57_set_offset_partial, C57_set_offset_zero_refuted, C58_copy_identical, C58_equality, C61_weights_check_partial, C61_weights_check_refuted, C62_l1_terms_partial, C62_sup_terms_refuted, C69_descent, C69_fixed_point_partial, C74_adjoint, C74_constructor, C74_copy, C74_multinomial_subsample, C74_multiresponse_subsample, C74_new, C74_product, C74_subsample, C75_constants, C75_same, C75_update_refuted, C76_adjoint, C76_edges, C76_gradient, C76_smaller, C77_copy_refuted, C77_maps, C77_min_singular_refuted, C78_enet, C78_enet_bound, C78_enet_off, C78_enet_quadratic_refuted, C80_labels, C80_predict, C82_assign, C82_binary, C82_history, C82_rest, C85_devratio, C87_ranks, C87_ranks_refuted, C90_dev, C90_dev_refuted, C91_range, C91_saddle

## none (21 theorems)

C10_history_partial, C10_step_partial, C20_set_weight_unknown, C42_accepts, C42_overlap_partial, C42_overlap_raises, C42_overlap_refuted, C48_accepts, C48_balance_partial, C48_balance_refuted, C48_count_refuted, C48_partition, C53_get_dual_refuted, C54_setters_refuted, C74_stacked_refuted, C75_default_size, C75_sigma_refuted, C77_conjugate, C77_wide_refuted, C80_constructor_refuted, C90_empty_refuted

## D (5 theorems)

C30_missing_attribute_refuted, C75_all_slices, C75_last_refuted, C78_columns, C78_vector_refused

## D C F (2 theorems)

C50_conjugate_partial, C50_proximal
