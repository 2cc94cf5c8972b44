{
 "claims": [
  {
   "property": "C01",
   "status": "proved",
   "theorems": [
    "C01_epoch_exactly_once",
    "C01_epoch_drop_last",
    "C01_collate_epoch"
   ],
   "note": "Lists of rows; the shuffle permutation is an argument."
  },
  {
   "property": "C02",
   "status": "proved",
   "theorems": [
    "C02_len_is_number_of_batches",
    "C02_getitem_is_ith_batch",
    "C02_getitem_out_of_range"
   ],
   "note": ""
  },
  {
   "property": "C03",
   "status": "proved",
   "theorems": [
    "C03_getitem_independent_of_sharding",
    "C03_negative_index_counts_from_first_shard",
    "C03_last_row_refuted"
   ],
   "note": "Finding: negative indices are resolved inside the first shard."
  },
  {
   "property": "C04",
   "status": "proved",
   "theorems": [
    "C04_subset_rows"
   ],
   "note": ""
  },
  {
   "property": "C05",
   "status": "proved",
   "theorems": [
    "C05_split_partitions",
    "C05_counts_fit"
   ],
   "note": "int(ratio*n) is the exact floor; float rounding of ratio*n is not modelled."
  },
  {
   "property": "C06",
   "status": "proved",
   "theorems": [
    "C06_kfold_partition",
    "C06_kfold_one_raises"
   ],
   "note": ""
  },
  {
   "property": "C07",
   "status": "proved",
   "theorems": [
    "C07_torch_kfold_exact_failure_set"
   ],
   "note": "Finding: 3-fold cross-validation raises for every n divisible by 3 on the Torch backend."
  },
  {
   "property": "C08",
   "status": "proved",
   "theorems": [
    "C08_min_max_of_concatenation",
    "C08_min_max_raise_iff",
    "C08_mean_of_concatenation",
    "C08_variance_of_concatenation",
    "C08_variance_one_row_is_nan"
   ],
   "note": "exact arithmetic"
  },
  {
   "property": "C09",
   "status": "proved",
   "theorems": [
    "C09_reduce_mean_is_row_mean",
    "C09_reduce_mean_drop_last",
    "C09_weights"
   ],
   "note": "exact arithmetic"
  },
  {
   "property": "C10",
   "status": "proved",
   "theorems": [
    "C10_infinite_iteration",
    "C10_finite_iteration_stops",
    "C10_starved_loader_never_yields"
   ],
   "note": ""
  },
  {
   "property": "C11",
   "status": "proved",
   "theorems": [
    "C11_scalers_invert",
    "C11_scalers_monotone",
    "C11_minmax_unit_interval",
    "C11_minmax_attains_ends",
    "C11_minmax_constant_column",
    "C11_normalizer_standardises"
   ],
   "note": "exact arithmetic, NumPy population standard deviation"
  },
  {
   "property": "C12",
   "status": "proved",
   "theorems": [
    "C12_scales_inverse",
    "C12_set_denormalized_values",
    "C12_set_denormalized_same",
    "C12_set_denormalized_mismatch",
    "C12_set_by_path",
    "C12_set_by_path_wrong_count",
    "C12_set_by_name",
    "C12_set_from_unnormalized",
    "C12_set_from_unnormalized_not_atomic"
   ],
   "note": "exact arithmetic; log scales need positive values; set_from_unnormalized is not atomic when a name is unknown"
  },
  {
   "property": "C13",
   "status": "proved",
   "theorems": [
    "C13_concat_entries",
    "C13_select_from_concat",
    "C13_get_by_path",
    "C13_path_match",
    "C13_indices",
    "C13_getitem",
    "C13_concat_then_slice",
    "C13_views"
   ],
   "note": ""
  },
  {
   "property": "C14",
   "status": "proved",
   "theorems": [
    "C14_check_bounds",
    "C14_anisotropic",
    "C14_false_alarm_refuted",
    "C14_missed_violation_refuted"
   ],
   "note": "the code compares denormalised values with log-space bounds; witnesses both ways"
  },
  {
   "property": "C15",
   "status": "proved",
   "theorems": [
    "C15_slice_labels",
    "C15_slice_positions_in_range",
    "C15_row_or_column",
    "C15_cell",
    "C15_set_cell"
   ],
   "note": "labels are exchanged by every non-scalar selection; characterised exactly"
  },
  {
   "property": "C16",
   "status": "proved",
   "theorems": [
    "C16_cache_transparent",
    "C16_kernel_reads_in_table",
    "C16_negative_order_refuted"
   ],
   "note": ""
  },
  {
   "property": "C17",
   "status": "proved",
   "theorems": [
    "C17_always_legal",
    "C17_update_sets_exactly",
    "C17_update_raises_iff",
    "C17_failed_update",
    "C17_failed_update_not_atomic",
    "C17_environment_agrees",
    "C17_set_backend_none",
    "C17_get_backend_stable",
    "C17_set_dtype",
    "C17_set_backend"
   ],
   "note": ""
  },
  {
   "property": "C18",
   "status": "proved",
   "theorems": [
    "C18_history_valid",
    "C18_accepts_iff",
    "C18_failed_call",
    "C18_nan",
    "C18_from_kwargs"
   ],
   "note": ""
  },
  {
   "property": "C19",
   "status": "proved",
   "theorems": [
    "C19_zero_mean_blup",
    "C19_zero_mean_not_pd_raises"
   ],
   "note": "Exact arithmetic over any real closed field; unique minimiser of the joint quadratic form."
  },
  {
   "property": "C20",
   "status": "proved",
   "theorems": [
    "C20_zero_mean_interpolates",
    "C20_parameterized_mean_interpolates",
    "C20_linear_mean_interpolates",
    "C20_zero_mean_covariance_zero",
    "C20_linear_covariance_zero"
   ],
   "note": "Per target: a target whose covariance column equals data column i returns z_i; returned variance is prior minus K_ii."
  },
  {
   "property": "C21",
   "status": "proved",
   "theorems": [
    "C21_zero_mean_posterior",
    "C21_more_observations",
    "C21_linear_posterior",
    "C21_linear_at_least_zero_mean"
   ],
   "note": ""
  },
  {
   "property": "C22",
   "status": "proved",
   "theorems": [
    "C22_universal_kriging_blup",
    "C22_main_branch_used",
    "C22_nonsingular_when_cpd"
   ],
   "note": "Main (block system) branch; the fall-back branch is C25."
  },
  {
   "property": "C23",
   "status": "proved",
   "theorems": [
    "C23_trend_equivariance",
    "C23_gls_plus_residual_kriging",
    "C23_gls_exists"
   ],
   "note": ""
  },
  {
   "property": "C24",
   "status": "proved",
   "theorems": [
    "C24_intrinsic_invariance",
    "C24_basis_change_invariance"
   ],
   "note": ""
  },
  {
   "property": "C25",
   "status": "proved",
   "theorems": [
    "C25_fallback_never_rescues",
    "C25_fallback_defect",
    "C25_fallback_wrong_refuted",
    "C25_scipy_fallback_biased_refuted"
   ],
   "note": "The code violates agreement; the exact defect is proved and the witnesses are for every QR satisfying the contract."
  },
  {
   "property": "C26",
   "status": "proved",
   "theorems": [
    "C26_predict_outputs"
   ],
   "note": ""
  },
  {
   "property": "C27",
   "status": "proved",
   "theorems": [
    "C27_same_object_reproduces_data",
    "C27_copy_smooths",
    "C27_copy_really_differs",
    "C27_copy_variance_in_range"
   ],
   "note": "Object identity is modelled by which covariance callable branch is taken."
  },
  {
   "property": "C28",
   "status": "proved",
   "theorems": [
    "C28_loo_zero_mean",
    "C28_loo_parameterized_mean",
    "C28_loo_vs_refit"
   ],
   "note": "The variance of an explicit Model.predict refit differs by exactly the nugget, which predict's pairwise prior variance omits."
  },
  {
   "property": "C29",
   "status": "proved",
   "theorems": [
    "C29_loo_linear_spd",
    "C29_loo_linear_cpd",
    "C29_cpd_spd_agree"
   ],
   "note": ""
  },
  {
   "property": "C30",
   "status": "proved",
   "theorems": [
    "C30_nll_value",
    "C30_nll_not_positive_definite",
    "C30_nll_centred",
    "C30_nll_chain_rule"
   ],
   "note": "over Coq's R; chain rule ties the value to the univariate normal density and the predictor. NumPy: the LinAlgError is not a RuntimeError and escapes."
  },
  {
   "property": "C31",
   "status": "proved",
   "theorems": [
    "C31_trend_invariance",
    "C31_basis_invariance",
    "C31_intrinsic_invariance",
    "C31_closed_form",
    "C31_failure"
   ],
   "note": "QR is an argument with a contract; value finite exactly when K is conditionally positive definite"
  },
  {
   "property": "C32",
   "status": "proved",
   "theorems": [
    "C32_fisher_psd",
    "C32_fisher_finite_differences",
    "C32_fisher_singular_raises",
    "C32_fisher_cpd_psd",
    "C32_fisher_cpd_basis_free",
    "C32_fisher_exact_to_degree_four"
   ],
   "note": "Includes the contrast-space variant."
  },
  {
   "property": "C33",
   "status": "proved",
   "theorems": [
    "C33_torch_variant_zero",
    "C33_finite_difference_variant",
    "C33_exact_information",
    "C33_torch_variant_negative"
   ],
   "note": "the property as a user would expect it is violated: witnesses where the autodiff variant returns 0, or minus the Fisher information"
  },
  {
   "property": "C34",
   "status": "proved",
   "theorems": [
    "C34_finite_difference_order",
    "C34_exact_to_degree_four"
   ],
   "note": "Error on degree five is exactly -4 a5 h^4."
  },
  {
   "property": "C35",
   "status": "proved",
   "theorems": [
    "C35_conditioned_law_zero_mean",
    "C35_conditioned_law_linear_mean",
    "C35_interpolates",
    "C35_interpolates_linear",
    "C35_interpolates_parameterized",
    "C35_agreeing_path_unchanged",
    "C35_parameterized_mean"
   ],
   "note": "Covariance statement for every finite law on the unconditional paths."
  },
  {
   "property": "C36",
   "status": "proved",
   "theorems": [
    "C36_cholesky_factor",
    "C36_cholesky_succeeds_iff",
    "C36_svd_factor",
    "C36_paths_covariance"
   ],
   "note": "SVD is an argument with its documented contract."
  },
  {
   "property": "C37",
   "status": "proved",
   "theorems": [
    "C37_closed_form",
    "C37_one_at_zero",
    "C37_bounds",
    "C37_strictly_decreasing",
    "C37_matern32",
    "C37_exponential"
   ],
   "note": "gammaln enters through its contract at positive integers"
  },
  {
   "property": "C38",
   "status": "proved",
   "theorems": [
    "C38_symmetric",
    "C38_diagonal",
    "C38_nugget_only_on_diagonal",
    "C38_cross",
    "C38_pairwise_is_diagonal",
    "C38_backends_agree"
   ],
   "note": "exact real arithmetic"
  },
  {
   "property": "C39",
   "status": "proved",
   "theorems": [
    "C39_positive_semidefinite",
    "C39_positive_definite",
    "C39_joint",
    "C39_zero_mean_kriging",
    "C39_universal_kriging",
    "C39_likelihood_finite"
   ],
   "note": "exact real arithmetic; all p, all dimensions"
  },
  {
   "property": "C40",
   "status": "proved",
   "theorems": [
    "C40_translation",
    "C40_change_of_units",
    "C40_linear_in_sigma2",
    "C40_coordinate_order"
   ],
   "note": ""
  },
  {
   "property": "C41",
   "status": "proved",
   "theorems": [
    "C41_minimum",
    "C41_monotone",
    "C41_barrier",
    "C41_infinite_at_both_ends",
    "C41_sign",
    "C41_raises",
    "C41_log_prior_support",
    "C41_log_prior_mode"
   ],
   "note": "the documented non-negativity fails; exact condition proved"
  },
  {
   "property": "C42",
   "status": "proved",
   "theorems": [
    "C42_slope_above_cutoff",
    "C42_unbounded_above",
    "C42_length_scales_penalised",
    "C42_criterion_unbounded_below",
    "C42_criterion_bounded_below"
   ],
   "note": "defect: sign of the variance penalty"
  },
  {
   "property": "C43",
   "status": "proved",
   "theorems": [
    "C43_smallest_gap",
    "C43_cutoff",
    "C43_default_raises_iff",
    "C43_two_points_raise",
    "C43_three_points_raise",
    "C43_constant_coordinate_nan"
   ],
   "note": "gammaln(3/2) enters through its value"
  },
  {
   "property": "C44",
   "status": "proved",
   "theorems": [
    "C44_select",
    "C44_update",
    "C44_prior_arguments"
   ],
   "note": ""
  },
  {
   "property": "C45",
   "status": "proved",
   "theorems": [
    "C45_history_complete",
    "C45_best_returned",
    "C45_flag",
    "C45_nan_kept",
    "C45_raises",
    "C45_model_improved"
   ],
   "note": "the optimiser is an arbitrary strategy"
  },
  {
   "property": "C46",
   "status": "proved",
   "theorems": [
    "C46_contains_start",
    "C46_user_bounds_kept",
    "C46_empirical_layout",
    "C46_empirical_variance",
    "C46_empirical_length"
   ],
   "note": ""
  },
  {
   "property": "C47",
   "status": "proved",
   "theorems": [
    "C47_cycles",
    "C47_order_fixed_loader",
    "C47_failed_evaluation",
    "C47_full_pass",
    "C47_whole_passes",
    "C47_not_a_function",
    "C47_empty_loader"
   ],
   "note": ""
  },
  {
   "property": "C48",
   "status": "proved",
   "theorems": [
    "C48_resample",
    "C48_refusals",
    "C48_residual_unbiased"
   ],
   "note": "multinomial generator enters through its contract"
  },
  {
   "property": "C49",
   "status": "proved",
   "theorems": [
    "C49_ess",
    "C49_scale_invariant"
   ],
   "note": ""
  },
  {
   "property": "C50",
   "status": "proved",
   "theorems": [
    "C50_cache_consistent",
    "C50_step_consistent",
    "C50_weights_telescope",
    "C50_move_rule"
   ],
   "note": ""
  },
  {
   "property": "C51",
   "status": "proved",
   "theorems": [
    "C51_first_stage",
    "C51_sure_event_gives_inverse_volume",
    "C51_later_stage"
   ],
   "note": "defect: missing box volume"
  },
  {
   "property": "C52",
   "status": "proved",
   "theorems": [
    "C52_level_correct",
    "C52_continuous_terminates",
    "C52_loops_when_no_level_is_close",
    "C52_loops_on_zero_density",
    "C52_loops_for_a_step_family"
   ],
   "note": "defect: possible endless loop"
  },
  {
   "property": "C53",
   "status": "proved",
   "theorems": [
    "C53_acceptance_probability",
    "C53_detailed_balance",
    "C53_target_invariant",
    "C53_nonsymmetric_correction_zero",
    "C53_asymmetric_proposal_refuted"
   ],
   "note": "invariance on finite state spaces; the correction is zero for any log density even in the step"
  },
  {
   "property": "C54",
   "status": "proved",
   "theorems": [
    "C54_trace",
    "C54_decision",
    "C54_absorbing",
    "C54_support"
   ],
   "note": "realised proposals and uniforms are arguments"
  },
  {
   "property": "C55",
   "status": "proved",
   "theorems": [
    "C55_box"
   ],
   "note": ""
  },
  {
   "property": "C56",
   "status": "proved",
   "theorems": [
    "C56_schedule",
    "C56_gain_sign"
   ],
   "note": "defect: gain goes negative"
  },
  {
   "property": "C57",
   "status": "proved",
   "theorems": [
    "C57_returned_samples",
    "C57_unvisited_rows",
    "C57_single_chain_raises",
    "C57_no_stop_at_first_check"
   ],
   "note": "defect: unvisited rows read"
  },
  {
   "property": "C58",
   "status": "proved",
   "theorems": [
    "C58_rm_scales_positive",
    "C58_haario_covariance_valid",
    "C58_group_contains_chain"
   ],
   "note": "exact arithmetic"
  },
  {
   "property": "C59",
   "status": "proved",
   "theorems": [
    "C59_sliding_rates",
    "C59_rates_range",
    "C59_first_rate_and_shift"
   ],
   "note": ""
  },
  {
   "property": "C60",
   "status": "proved",
   "theorems": [
    "C60_lower_bound",
    "C60_constant_chains",
    "C60_affine_invariance",
    "C60_verdict"
   ],
   "note": ""
  },
  {
   "property": "C61",
   "status": "proved",
   "theorems": [
    "C61_leapfrog_reversible",
    "C61_composition_of_shears",
    "C61_volume_preserving",
    "C61_modified_energy",
    "C61_velocity"
   ],
   "note": "exact real arithmetic; Jacobian determinant in one dimension, shears in every dimension"
  },
  {
   "property": "C62",
   "status": "proved",
   "theorems": [
    "C62_tree_counts",
    "C62_tree_proposal",
    "C62_transition",
    "C62_transition_finite",
    "C62_nonfinite_start",
    "C62_stopped_subtree",
    "C62_uturn"
   ],
   "note": "uniform draws are arbitrary numbers in [0,1)"
  },
  {
   "property": "C63",
   "status": "proved",
   "theorems": [
    "C63_windows_tile",
    "C63_windows_partition",
    "C63_default_policy"
   ],
   "note": "int() of ratio*n is the exact floor"
  },
  {
   "property": "C64",
   "status": "proved",
   "theorems": [
    "C64_welford"
   ],
   "note": "exact arithmetic"
  },
  {
   "property": "C65",
   "status": "proved",
   "theorems": [
    "C65_bounds",
    "C65_steps_and_masses",
    "C65_dual_averaging",
    "C65_averaged_step",
    "C65_no_overflow",
    "C65_overflow_possible",
    "C65_search_terminates",
    "C65_search_needs_base"
   ],
   "note": "outcomes of the transitions are arguments; Finding: a warm-up of 90000 iterations with full acceptance and default settings raises OverflowError"
  },
  {
   "property": "C66",
   "status": "proved",
   "theorems": [
    "C66_normal_law",
    "C66_truncated_integral",
    "C66_improper_integrals",
    "C66_additive",
    "C66_bounds",
    "C66_wrong_infinity"
   ],
   "note": "the bivariate normal distribution function enters through its defining integral; Finding: sign of an infinite threshold ignored"
  },
  {
   "property": "C67",
   "status": "proved",
   "theorems": [
    "C67_invariances",
    "C67_minimum",
    "C67_growth"
   ],
   "note": "exact real arithmetic"
  },
  {
   "property": "C68",
   "status": "proved",
   "theorems": [
    "C68_grid",
    "C68_box_and_distinct",
    "C68_errors"
   ],
   "note": "exact arithmetic"
  },
  {
   "property": "C69",
   "status": "proved",
   "theorems": [
    "C69_smallest_distance",
    "C69_never_larger",
    "C69_underestimates",
    "C69_degenerate"
   ],
   "note": "Finding: the function computes the separation of the two sets"
  },
  {
   "property": "C70",
   "status": "proved",
   "theorems": [
    "C70_values",
    "C70_consistency",
    "C70_units",
    "C70_constant_targets",
    "C70_reference_predictors"
   ],
   "note": "exact arithmetic"
  },
  {
   "property": "C71",
   "status": "proved",
   "theorems": [
    "C71_grid_values",
    "C71_grid_coherent",
    "C71_grid_raises",
    "C71_grid_shift",
    "C71_quadrature_values",
    "C71_quadrature_quantile",
    "C71_quadrature_not_shift_invariant",
    "C71_quadrature_small_shift"
   ],
   "note": "quad and brentq are arguments with contracts quad_contract, brentq_contract"
  },
  {
   "property": "C72",
   "status": "proved",
   "theorems": [
    "C72_temperature_raises",
    "C72_temperature_schedule",
    "C72_single_temperature",
    "C72_kernel",
    "C72_median_bandwidth",
    "C72_stein_direction",
    "C72_repulsion_cancels",
    "C72_step_accepts",
    "C72_step_shape_and_box",
    "C72_dead_particles_stay",
    "C72_flat_target_keeps_centre",
    "C72_single_particle",
    "C72_run",
    "C72_zero_steps",
    "C72_dead_forever",
    "C72_preconditioner"
   ],
   "note": "velocities are real numbers; value_and_grad is an argument"
  },
  {
   "property": "C73",
   "status": "proved",
   "theorems": [
    "C73_concat_rows",
    "C73_append_col",
    "C73_append_after_concat",
    "C73_append_row",
    "C73_append_col_cells",
    "C73_concat_cols",
    "C73_append_row_after_concat"
   ],
   "note": ""
  },
  {
   "property": "C74",
   "status": "proved",
   "theorems": [
    "C74_zero_mean_maximum_likelihood",
    "C74_constant_mean",
    "C74_linear_mean_restricted_likelihood",
    "C74_length_scales",
    "C74_length_scales_linear_mean"
   ],
   "note": ""
  },
  {
   "property": "C75",
   "status": "proved",
   "theorems": [
    "C75_coverage",
    "C75_raises",
    "C75_log_density",
    "inv_cdf_contract_holds"
   ],
   "note": "inverse normal cdf enters through its contract, shown satisfiable by inv_cdf_contract_holds"
  },
  {
   "property": "C76",
   "status": "proved",
   "theorems": [
    "C76_array_gradient",
    "C76_array_gradient_before_evaluation",
    "C76_batch_gradient",
    "C76_batch_gradient_stale",
    "C76_history"
   ],
   "note": "defect: stale batch gradient"
  },
  {
   "property": "C77",
   "status": "proved",
   "theorems": [
    "C77_restart_ends_at_target",
    "C77_p0_path_monotone",
    "C77_ess_path_monotone",
    "C77_run_consistent"
   ],
   "note": "brentq enters through its contract"
  },
  {
   "property": "C78",
   "status": "proved",
   "theorems": [
    "C78_tuning",
    "C78_stuck_particles_raise",
    "C78_no_error"
   ],
   "note": ""
  },
  {
   "property": "C79",
   "status": "proved",
   "theorems": [
    "C79_ks_fraction",
    "C79_ks_never_ok"
   ],
   "note": "ks_2samp p-values are arbitrary"
  },
  {
   "property": "C80",
   "status": "proved",
   "theorems": [
    "C80_log_target_values"
   ],
   "note": ""
  },
  {
   "property": "C81",
   "status": "proved",
   "theorems": [
    "C81_reversible_on_slice",
    "C81_divergence_test_asymmetric",
    "C81_law_unique"
   ],
   "note": "Finding: asymmetric kernel when the two divergence tests disagree"
  },
  {
   "property": "C82",
   "status": "proved",
   "theorems": [
    "C82_mass_is_variance",
    "C82_mass_before",
    "C82_stability_limit"
   ],
   "note": "Finding: the adapted mass is the inverse of the usual choice"
  },
  {
   "property": "C83",
   "status": "proved",
   "theorems": [
    "C83_expected_improvement",
    "C83_shape",
    "C83_two_draws"
   ],
   "note": ""
  },
  {
   "property": "C84",
   "status": "proved",
   "theorems": [
    "C84_scale",
    "C84_maximin",
    "C84_low_discrepancy",
    "C84_raises",
    "C84_latin",
    "C84_not_maximin_in_box",
    "C84_mindist"
   ],
   "note": "candidates and the discrepancy are arguments; qmc.scale as documented; Finding: compared in the unit cube"
  },
  {
   "property": "C85",
   "status": "proved",
   "theorems": [
    "C85_describe",
    "C85_delta_over_sigma",
    "C85_range_over_rho",
    "C85_not_unit_free"
   ],
   "note": "Finding: the ratio printed for the observations divides by the variance"
  },
  {
   "property": "C86",
   "status": "proved",
   "theorems": [
    "C86_pit_values",
    "C86_pit_monotone",
    "C86_column_targets"
   ],
   "note": "norm.cdf is the Gaussian distribution function, NaN for a zero scale; Finding: column targets give a square array"
  },
  {
   "property": "C87",
   "status": "proved",
   "theorems": [
    "C87_freeze",
    "C87_rows",
    "C87_even_grid_misses_optimum",
    "C87_odd_grid_has_optimum"
   ],
   "note": "exact arithmetic"
  },
  {
   "property": "C88",
   "status": "proved",
   "theorems": [
    "C88_no_score_near_a_face",
    "C88_score_inside",
    "C88_lone_particle_sticks"
   ],
   "note": "Finding: particles clipped onto the box cannot leave its faces by their own score"
  },
  {
   "property": "C89",
   "status": "proved",
   "theorems": [
    "C89_shape",
    "C89_starting_points",
    "C89_raises",
    "C89_column_layout_refuted",
    "C89_vector_is_one_point",
    "C89_random_start",
    "C89_criterion",
    "C89_box"
   ],
   "note": "Finding: the documented (dim, n_chains) layout is refused or misread"
  },
  {
   "property": "C90",
   "status": "proved",
   "theorems": [
    "C90_samples",
    "C90_failing_criterion",
    "C90_raises"
   ],
   "note": "Finding: a criterion raising everywhere yields constant chains without any report"
  },
  {
   "property": "C91",
   "status": "proved",
   "theorems": [
    "C91_array_density",
    "C91_exceptions",
    "C91_particles_in_box",
    "C91_outside_returned",
    "C91_equal_temperatures"
   ],
   "note": "Findings: particles outside the box are returned when none is drawn inside; equal temperatures return the uniform draws"
  },
  {
   "property": "C92",
   "status": "proved",
   "theorems": [
    "C92_random_init_ignored",
    "C92_shape",
    "C92_in_box",
    "C92_collapsed",
    "C92_explicit_options_drop_the_box_refuted"
   ],
   "note": "Finding: options= drops the sampling box"
  },
  {
   "property": "C93",
   "status": "proved",
   "theorems": [
    "C93_global_minimum",
    "C93_three_minimisers"
   ],
   "note": ""
  },
  {
   "property": "C94",
   "status": "proved",
   "theorems": [
    "C94_detpep8d_misses_terms",
    "C94_wave",
    "C94_hartmann_range",
    "C94_hartmann4_documented_minimum_refuted",
    "C94_twobumps_quasi_periodic",
    "C94_hartmann6_documented_minimum"
   ],
   "note": "Findings: an indentation error drops four terms of detpep8d; the formula in the documentation of wave and the minimum documented for hartmann4 are wrong"
  },
  {
   "property": "C95",
   "status": "proved",
   "theorems": [
    "C95_main_effects",
    "C95_variance"
   ],
   "note": ""
  },
  {
   "property": "C96",
   "status": "proved",
   "theorems": [
    "C96_flow_over_resistance",
    "C96_monotone",
    "C96_extremes"
   ],
   "note": ""
  },
  {
   "property": "C97",
   "status": "proved",
   "theorems": [
    "C97_value",
    "C97_outside",
    "C97_jeffreys",
    "C97_jeffreys_no_minimum",
    "C97_logsigma2",
    "C97_map",
    "C97_logrho",
    "C97_failure"
   ],
   "note": "exact arithmetic; length scales fixed"
  },
  {
   "property": "C98",
   "status": "proved",
   "theorems": [
    "C98_quadratic_form",
    "C98_defined",
    "C98_classical",
    "C98_psd",
    "C98_all_neighbours",
    "C98_affine",
    "C98_collapsed",
    "C98_recovery",
    "C98_single_particle",
    "C98_scale"
   ],
   "note": "neighbour index, random choice and noise are arguments; C98_collapsed assumes the noise has no component in the null space of its covariance (draws_in_range); the code violates the documented jitter recovery: C98_recovery"
  },
  {
   "property": "C99",
   "status": "proved",
   "theorems": [
    "C99_ensure",
    "C99_idempotent",
    "C99_lists_refuted",
    "C99_mean",
    "C99_missing_meanparam_refuted",
    "C99_source",
    "C99_partial_arrays_ignored",
    "C99_prepare",
    "C99_lengths_not_compared_refuted"
   ],
   "note": "array_like lists are documented but refused (C99_lists_refuted); meanparam is documented as required but not checked"
  },
  {
   "property": "C100",
   "status": "proved",
   "theorems": [
    "C100_zero_mean",
    "C100_one_batch",
    "C100_constant_mean",
    "C100_raises",
    "C100_bound",
    "C100_single_observations",
    "C100_linear_mean"
   ],
   "note": "batches are those of one finite pass (C01-C10 say which); for the linear mean every batch has at least q rows and a trend matrix of full rank"
  },
  {
   "property": "C101",
   "status": "proved",
   "theorems": [
    "C101_transitions",
    "C101_finite_start",
    "C101_stuck",
    "C101_depth_zero",
    "C101_steps_and_masses",
    "C101_no_overflow",
    "C101_no_chains"
   ],
   "note": "Gaussian numbers, the gradient and the initial step size are arguments; uniform draws are arbitrary numbers in [0,1)"
  },
  {
   "property": "C102",
   "status": "proved",
   "theorems": [
    "C102_samples",
    "C102_numpy_faces",
    "C102_options",
    "C102_numpy_gradient"
   ],
   "note": "the gradient is an argument in C102_samples and the NumPy difference formula in C102_numpy_faces; the random starts have the inferred dimension"
  },
  {
   "property": "C103",
   "status": "proved",
   "theorems": [
    "C103_given_anchor",
    "C103_decrease",
    "C103_decrease_map",
    "C103_fixed_point",
    "C103_converges",
    "C103_start"
   ],
   "note": "the optimiser is abstract: a result not worse than its start, a minimiser, or the exact minimiser over the variance; prior bounds given or computed from the points, array data"
  },
  {
   "property": "C104",
   "status": "proved",
   "theorems": [
    "C104_restricted_likelihood",
    "C104_value",
    "C104_equal_batches",
    "C104_repeated",
    "C104_failure"
   ],
   "note": "one full pass per evaluation, as in all the wrappers (batches_per_eval = 0)"
  },
  {
   "property": "C105",
   "status": "proved",
   "theorems": [
    "C105_value",
    "C105_range",
    "C105_counts",
    "C105_order_free",
    "C105_units",
    "C105_std",
    "C105_sampled",
    "C105_robust"
   ],
   "note": "NaN entries not modelled; the percentile of an array without rows is taken to raise"
  },
  {
   "property": "C106",
   "status": "proved",
   "theorems": [
    "C106_assign",
    "C106_rejected",
    "C106_read_back",
    "C106_stale_labels"
   ],
   "note": "the data type of the frame is not modelled (an integer frame truncates what is assigned); two names: scalar values only; no value that shares memory with the frame"
  },
  {
   "property": "C107",
   "status": "proved",
   "theorems": [
    "C107_in_place",
    "C107_views",
    "C107_copies",
    "C107_detached",
    "C107_caller",
    "C107_caller_list",
    "C107_integer",
    "C107_values_setter",
    "C107_copy_types"
   ],
   "note": "labels are immutable; arrays have the working precision or are integers (others are converted, hence copied); NumPy's rules for slices (views) and index lists (copies)"
  },
  {
   "property": "C108",
   "status": "proved",
   "theorems": [
    "C108_parameters",
    "C108_bounds",
    "C108_default"
   ],
   "note": "covparam is a vector; the entries copied from info into param_selection are not modelled"
  },
  {
   "property": "C109",
   "status": "proved",
   "theorems": [
    "C109_jitter",
    "C109_jitter_pd",
    "C109_adapted",
    "C109_pooled",
    "C109_groups",
    "C109_rates",
    "C109_rates_raises",
    "C109_recompute"
   ],
   "note": "the draw is an argument; its success on exactly the positive definite matrices is a hypothesis of C109_jitter_pd and C109_adapted; the decomposition takes groups of at least two samples; rates are finite numbers"
  },
  {
   "property": "C110",
   "status": "proved",
   "theorems": [
    "C110_joint",
    "C110_reml",
    "C110_equivariance",
    "C110_guess_linear",
    "C110_guess_constant",
    "C110_split",
    "C110_refused",
    "C110_accepted",
    "C110_update_guess"
   ],
   "note": "mean linear in its parameters, Matern covariance; the optimiser is an arbitrary strategy of questions and answers, whose points have the length of its start and whose reported value is the one it was told (hypotheses of C110_accepted); the initial guess of the wrappers is an argument"
  },
  {
   "property": "C111",
   "status": "proved",
   "theorems": [
    "C111_distinct_names",
    "C111_default_names",
    "C111_default_names_collide_refuted",
    "C111_to_dict",
    "C111_by_name",
    "C111_hidden_update",
    "C111_dict_round_trip",
    "C111_paths_partition",
    "C111_prefix",
    "C111_noisy_layout",
    "C111_noisy_short"
   ],
   "note": "values are real numbers, so log and exp are inverse of one another; the order of the set returned by get_paths() is arbitrary"
  },
  {
   "property": "C112",
   "status": "proved",
   "theorems": [
    "C112_predict",
    "C112_loo_zero",
    "C112_loo_param",
    "C112_loo_linear",
    "C112_nll",
    "C112_reml",
    "C112_fisher"
   ],
   "note": "exact arithmetic; symmetric kernels; for a linear predictor the block system is assumed solvable, so that the fallback of C25 is not taken; targets are another array object than the observations (C27)"
  },
  {
   "property": "C113",
   "status": "proved",
   "theorems": [
    "C113_variance",
    "C113_believer",
    "C113_influence"
   ],
   "note": "exact arithmetic; the data covariance is positive definite (on the contrasts for a linear predictor, and the kept points determine the trend); targets are another array object than the observations"
  },
  {
   "property": "C114",
   "status": "proved",
   "theorems": [
    "C114_floats",
    "C114_error",
    "C114_error_reached",
    "C114_views",
    "C114_integers"
   ],
   "note": "exact arithmetic, finite values (C88 treats infinities); the statement says exactly where the gradient is wrong: functions returning views, integer arrays"
  },
  {
   "property": "C115",
   "status": "proved",
   "theorems": [
    "C115_loo",
    "C115_predict",
    "C115_sequence"
   ],
   "note": "exact arithmetic; sequences may start at an empty set of observations in the model, the code was not read for empty arrays"
  },
  {
   "property": "C116",
   "status": "proved",
   "theorems": [
    "C116_predict",
    "C116_loo",
    "C116_criterion",
    "C116_matern_covariance",
    "C116_matern",
    "C116_minimisers",
    "C116_guess_zero",
    "C116_guess_linear",
    "C116_guess_constant",
    "C116_remap_logsigma2",
    "C116_remap"
   ],
   "note": "exact arithmetic; the guesses assume that no coordinate is constant over the points and data outside the span of the trend; REMAP is stated for the update functions (which call the select functions) with a positive factor for the range cut-off and array data"
  },
  {
   "property": "C117",
   "status": "proved",
   "theorems": [
    "C117_default_bands",
    "C117_own_labels",
    "C117_label_refuted",
    "C117_too_many_levels",
    "C117_single_band",
    "C117_no_labels",
    "C117_scheme_errors",
    "C117_polygon",
    "C117_coverage",
    "C117_nested",
    "C117_hue_colour",
    "C117_sections",
    "C117_bad_index",
    "C117_bad_index_raises",
    "C117_sweep_range",
    "C117_integer_inputs",
    "C117_through_anchor",
    "C117_min_anchor",
    "C117_min_anchor_nan_refuted",
    "C117_rejected",
    "C117_max_anchor",
    "C117_defaults"
   ],
   "note": "exact arithmetic; the artists handed to Matplotlib are modelled, not Matplotlib; the normal quantile function is an argument; C117_label_refuted and C117_min_anchor_nan_refuted exhibit the wrong label and the NaN anchor"
  },
  {
   "property": "C118",
   "status": "proved",
   "theorems": [
    "C118_pit_ecdf",
    "C118_sections",
    "C118_succeeds",
    "C118_reference",
    "C118_box_column_refuted",
    "C118_labels",
    "C118_profile",
    "C118_same_index",
    "C118_window",
    "C118_levels",
    "C118_nan_is_best",
    "C118_titles"
   ],
   "note": "exact arithmetic; the data handed to Matplotlib are modelled, with the meaning of plt.step; criteria return a float (one that raises is not modelled); C118_box_column_refuted exhibits the wrong range"
  },
  {
   "property": "C119",
   "status": "proved",
   "theorems": [
    "C119_predict",
    "C119_loo",
    "C119_loo_nugget",
    "C119_criterion",
    "C119_estimates",
    "C119_noise_refuted"
   ],
   "note": "exact arithmetic; the pairwise prior variance of the example is the value of the latent covariance at equal points; C119_noise_refuted shows that the noise variance cannot be estimated from the pooled observations"
  },
  {
   "property": "C120",
   "status": "proved",
   "theorems": [
    "C120_predict",
    "C120_loo",
    "C120_criterion",
    "C120_selection"
   ],
   "note": "exact arithmetic; the clipping of negative variances is either on or off in both models"
  },
  {
   "property": "C121",
   "status": "proved",
   "theorems": [
    "C121_predict",
    "C121_loo",
    "C121_noise_predict",
    "C121_noise_loo"
   ],
   "note": "exact arithmetic; covariance functions symmetric; the clipping of negative variances is either on or off in both models"
  },
  {
   "property": "C122",
   "status": "proved",
   "theorems": [
    "C122_predict",
    "C122_loo",
    "C122_criterion"
   ],
   "note": "exact arithmetic"
  },
  {
   "property": "C123",
   "status": "proved",
   "theorems": [
    "C123_number",
    "C123_places",
    "C123_order",
    "C123_showable",
    "C123_nan",
    "C123_table",
    "C123_param_showable",
    "C123_param",
    "C123_dictionary",
    "C123_unnormalised"
   ],
   "note": "exact real arithmetic for log10 and the division by a power of ten; rounding of the f format is any rounding to nearest; the .4g text of a bound is an arbitrary function"
  },
  {
   "property": "C124",
   "status": "proved",
   "theorems": [
    "C124_monotone",
    "C124_zero",
    "C124_increment",
    "C124_bound",
    "C124_equal",
    "C124_k_inverses"
   ],
   "note": "exact arithmetic; the QR routine is an argument assumed to be a complete QR factorisation; norm_k_sqrd_with_zero_mean does not subtract the mean in spite of its documentation, for a known mean it is called on the residuals"
  },
  {
   "property": "C125",
   "status": "proved",
   "theorems": [
    "C125_less",
    "C125_variances",
    "C125_scale"
   ],
   "note": "exact arithmetic; the covariance functions are symmetric; the QR routine is an argument assumed to be a complete QR factorisation; the autodiff variant fisher_information_torch is wrong and treated in C33"
  },
  {
   "property": "C126",
   "status": "proved",
   "theorems": [
    "C126_bound",
    "C126_matern"
   ],
   "note": "exact arithmetic; C126_matern uses the closed form of the Matern kernel (C37) and that Matern covariance matrices are positive definite with their nugget (C39)"
  },
  {
   "property": "C127",
   "status": "proved",
   "theorems": [
    "C127_predict",
    "C127_loo",
    "C127_norm",
    "C127_fisher",
    "C127_criterion"
   ],
   "note": "exact arithmetic; zero and parameterized means; linear predictors are outside this claim; for the Fisher information the groups are uncorrelated for all parameter values"
  },
  {
   "property": "C128",
   "status": "proved",
   "theorems": [
    "C128_mean",
    "C128_sd",
    "C128_data",
    "C128_matern"
   ],
   "note": "exact arithmetic; the observations are such that the computations succeed (fits), which holds for the Matern covariances by their nugget; the effect of a change of data is stated for zero and given means"
  },
  {
   "property": "C129",
   "status": "proved",
   "theorems": [
    "C129_history",
    "C129_runs",
    "C129_robbins_monro",
    "C129_haario",
    "C129_restart",
    "C129_accepted",
    "C129_rows",
    "C129_stack",
    "C129_default",
    "C129_variances"
   ],
   "note": "exact arithmetic; rates and block covariances are arguments; arrays in numbered memory cells; the misreading of one row per chain and the scaling factors kept between runs are properties of the code, shown by C129_rows, C129_restart and the Example"
  },
  {
   "property": "C130",
   "status": "proved",
   "theorems": [
    "C130_step",
    "C130_recorded",
    "C130_normal",
    "C130_restart",
    "C130_ends",
    "C130_subset",
    "C130_plot",
    "C130_stairs"
   ],
   "note": "exact arithmetic; rates, effective sample sizes and levels are arguments; runs stopped by a ParticlesSetError are not modelled; stale or anticipated values in the entries are properties of the code"
  },
  {
   "property": "C131",
   "status": "proved",
   "theorems": [
    "C131_removed",
    "C131_flat",
    "C131_fisher",
    "C131_moved",
    "C131_short",
    "C131_long"
   ],
   "note": "exact arithmetic; the initial guess and the REMAP criteria are undefined for such data (see C43)"
  },
  {
   "property": "C132",
   "status": "proved",
   "theorems": [
    "C132_predict",
    "C132_loo",
    "C132_reflection",
    "C132_axis",
    "C132_exchange"
   ],
   "note": "exact arithmetic; rounding breaks exact symmetry"
  },
  {
   "property": "C133",
   "status": "proved",
   "theorems": [
    "C133_backends",
    "C133_numpy",
    "C133_torch",
    "C133_wrong",
    "C133_inverse",
    "C133_cho",
    "C133_logdet"
   ],
   "note": "exact arithmetic; the calls to SciPy and Torch are modelled by their documentation; C133_wrong: the answer of Torch with trans=1 and the flag of the matrix given is wrong for matrices that are not diagonal; nothing in /repo calls solve_triangular with trans"
  },
  {
   "property": "C134",
   "status": "proved",
   "theorems": [
    "C134_rows",
    "C134_burnin",
    "C134_verdict",
    "C134_close",
    "C134_order",
    "C134_copies",
    "C134_negative",
    "C134_check"
   ],
   "note": "exact arithmetic; C134_burnin shows that the defaults of the two functions differ"
  },
  {
   "property": "C135",
   "status": "proved",
   "theorems": [
    "C135_values",
    "C135_raises",
    "C135_flat",
    "C135_symmetric"
   ],
   "note": "scipy.integrate.quad and scipy.optimize.brentq enter through the contracts of C71 (exact integral; root within xtol); C135_raises shows that the criterion values of large data sets make the function fail"
  },
  {
   "property": "C136",
   "status": "proved",
   "theorems": [
    "C136_seeded",
    "C136_fresh",
    "C136_unaffected",
    "C136_epochs",
    "C136_abandoned",
    "C136_same_order",
    "C136_repeats",
    "C136_reset",
    "C136_mh",
    "C136_shared"
   ],
   "note": "a generator is any state machine; which generator each function of the library draws from is read from the source and listed in SeedModel.v; C136_mh, C136_shared and C136_reset are the limits of what a seed fixes"
  },
  {
   "property": "C137",
   "status": "proved",
   "theorems": [
    "C137_density",
    "C137_logcdf",
    "C137_pit",
    "C137_choice",
    "C137_mean"
   ],
   "note": "scipy.stats.norm, Generator.choice and torch.distributions.Normal (argument check, cdf by erf) enter by their documented formulas; the statement is an exact account of where the Torch backend departs from the NumPy one"
  },
  {
   "property": "C138",
   "status": "proved",
   "theorems": [
    "C138_contrasts",
    "C138_pair",
    "C138_condition",
    "C138_variance",
    "C138_repeated"
   ],
   "note": "exact arithmetic; Choleski and QR by their contracts; the minimisers are those of the criteria, not the points returned by the optimiser"
  },
  {
   "property": "C139",
   "status": "proved",
   "theorems": [
    "C139_values",
    "C139_sharing",
    "C139_bridge",
    "C139_asint",
    "C139_asint_type",
    "C139_isscalar",
    "C139_inf",
    "C139_nan_to_num",
    "C139_flags"
   ],
   "note": "numpy.asarray, array and astype, torch.from_numpy, as_tensor, Tensor.to and requires_grad_ enter by their documented effects; the statement is an exact account of where the two backends differ"
  },
  {
   "property": "C140",
   "status": "proved",
   "theorems": [
    "C140_extremes",
    "C140_axis",
    "C140_cov",
    "C140_clip",
    "C140_split",
    "C140_split_int"
   ],
   "note": "the functions of numpy and torch that are wrapped enter by their documented results; arithmetic over the reals; the statement is an exact account of where the two backends differ"
  },
  {
   "property": "C141",
   "status": "proved",
   "theorems": [
    "C141_calls",
    "C141_matrix",
    "C141_fisher"
   ],
   "note": "torch.autograd.grad enters by its documented behaviour; points are vectors; gradient() with its default retain=True"
  },
  {
   "property": "C142",
   "status": "proved",
   "theorems": [
    "C142_nuts",
    "C142_average",
    "C142_loo",
    "C142_curves"
   ],
   "note": "exact account of a defect; matplotlib is taken not to fail and its axis limits to contain the data; labels and image contents are not modelled"
  },
  {
   "property": "C143",
   "status": "proved",
   "theorems": [
    "C143_resolve",
    "C143_names",
    "C143_unsigned",
    "C143_asarray",
    "C143_full",
    "C143_linspace",
    "C143_meshgrid",
    "C143_letters"
   ],
   "note": "exact account of differences between the backends; the functions of NumPy and Torch enter by their documented values; grids in exact arithmetic; integers out of range in Python numbers and lists, where NumPy raises, are outside the statement"
  },
  {
   "property": "C144",
   "status": "proved",
   "theorems": [
    "C144_factors",
    "C144_bases"
   ],
   "note": "the documentation is contradicted for rank deficient P; gnp.qr enters by its documented contract, in exact arithmetic"
  }
 ]
}