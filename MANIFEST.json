{
 "claims": [
  {
   "property": "C01",
   "status": "proved",
   "theorems": [
    "normalize_accepts_exactly_probability_vectors",
    "resolve_is_normalize_plus_length",
    "resolve_returns_distribution"
   ],
   "note": "Exact acceptance criterion incl. NaN/inf."
  },
  {
   "property": "C02",
   "status": "proved",
   "theorems": [
    "normalize_sums_to_one_up_to_isclose",
    "normalize_sums_to_exactly_one_refuted"
   ],
   "note": "The literal exact claim is refuted; tolerance version proved."
  },
  {
   "property": "C03",
   "status": "proved",
   "theorems": [
    "exp_decay_half_life_law",
    "exp_decay_half_at_half_life",
    "exp_decay_monotone",
    "exp_decay_rejects_empty_refuted",
    "uniform_probabilities_correct"
   ],
   "note": "n<=0 is not rejected by the decay generator (refuted part)."
  },
  {
   "property": "C04",
   "status": "proved",
   "theorems": [
    "gaussian_kernel_distribution",
    "gaussian_kernel_peaks_at_target",
    "gaussian_kernel_total"
   ],
   "note": "Exact reals: exp underflow not modelled."
  },
  {
   "property": "C05",
   "status": "proved",
   "theorems": [
    "effective_scenarios_entropy_bounds",
    "effective_scenarios_entropy_max_iff_uniform",
    "effective_scenarios_entropy_min_iff_point_mass"
   ],
   "note": ""
  },
  {
   "property": "C06",
   "status": "proved",
   "theorems": [
    "effective_scenarios_hhi_bounds",
    "effective_scenarios_hhi_max_iff_uniform",
    "effective_scenarios_hhi_min_iff_point_mass"
   ],
   "note": ""
  },
  {
   "property": "C07",
   "status": "proved",
   "theorems": [
    "portfolio_variance_is_variance"
   ],
   "note": ""
  },
  {
   "property": "C08",
   "status": "proved",
   "theorems": [
    "var_is_loss_quantile",
    "loss_quantile_unique",
    "var_cvar_accept",
    "var_cvar_reject",
    "var_rejects_bad_probabilities_refuted"
   ],
   "note": "Holds for genuine probability vectors; the code does not validate p (refuted theorem)."
  },
  {
   "property": "C09",
   "status": "proved",
   "theorems": [
    "cvar_is_rockafellar_uryasev",
    "cvar_between_var_and_worst",
    "cvar_subadditive",
    "cvar_monotone"
   ],
   "note": ""
  },
  {
   "property": "C10",
   "status": "proved",
   "theorems": [
    "var_cvar_scenario_order",
    "var_cvar_homogeneous",
    "var_cvar_translate"
   ],
   "note": ""
  },
  {
   "property": "C11",
   "status": "proved",
   "theorems": [
    "constraint_matrices_mean_the_constraints",
    "default_constraints_are_the_simplex"
   ],
   "note": ""
  },
  {
   "property": "C12",
   "status": "proved",
   "theorems": [
    "constraint_matrix_shapes",
    "constraints_accepted_iff_well_formed",
    "constraints_rejected_with_clear_errors",
    "from_dict_ignores_unknown_keys",
    "unbounded_warning_is_right",
    "constraint_matrices_finite_refuted",
    "unbounded_always_warned_refuted"
   ],
   "note": "User rows may carry NaN (refuted finiteness); warning is incomplete (refuted)."
  },
  {
   "property": "C13",
   "status": "proved",
   "theorems": [
    "discrete_never_overspends",
    "discrete_call_accounting",
    "greedy_never_raises",
    "greedy_exit_condition"
   ],
   "note": "Overspending bound is 1e-8 for every solver; long-only by greedy_exit_condition."
  },
  {
   "property": "C14",
   "status": "proved",
   "theorems": [
    "discrete_call_terminates",
    "greedy_exit_condition",
    "greedy_default_never_uses_fallback",
    "greedy_fallback_modes"
   ],
   "note": "Default cap or any cap above 2n."
  },
  {
   "property": "C15",
   "status": "proved",
   "theorems": [
    "milp_allocation_optimal",
    "milp_feasible_if_affordable",
    "milp_allocation_sound",
    "milp_optimal_with_shorts_refuted"
   ],
   "note": "The solver is assumed to return an exact optimum; refuted with shorts."
  },
  {
   "property": "C16",
   "status": "proved",
   "theorems": [
    "discrete_call_accounting",
    "discrete_weights_and_cash_sum_to_one"
   ],
   "note": ""
  },
  {
   "property": "C17",
   "status": "proved",
   "theorems": [
    "normalized_weights_sum_to_one",
    "weights_accepted_iff",
    "labelled_weights_order_irrelevant",
    "weights_nonnegative_refuted"
   ],
   "note": "Docstring non-negativity refuted."
  },
  {
   "property": "C18",
   "status": "proved",
   "theorems": [
    "average_preserves_constraints",
    "average_preserves_equalities",
    "average_long_only_refuted"
   ],
   "note": ""
  },
  {
   "property": "C19",
   "status": "proved",
   "theorems": [
    "folds_partition_samples",
    "folds_balanced_refuted"
   ],
   "note": ""
  },
  {
   "property": "C20",
   "status": "proved",
   "theorems": [
    "stacking_programme_is_cv_residual",
    "stacking_optimal",
    "stacking_preserves_constraints"
   ],
   "note": "The solver is assumed to return an exact optimum."
  },
  {
   "property": "C21",
   "status": "proved",
   "theorems": [
    "cvar_lp_value",
    "mean_cvar_portfolio_optimal",
    "cvar_cost_exists",
    "mean_cvar_bad_alpha",
    "mean_cvar_costs_need_both"
   ],
   "note": "solver exactness is a hypothesis"
  },
  {
   "property": "C22",
   "status": "proved",
   "theorems": [
    "mv_qp_meaning",
    "mv_portfolio_optimal",
    "mv_retry_ridge",
    "mv_single_cost_broadcast_refuted",
    "mv_costs_need_both"
   ],
   "note": "per-asset impact vectors; a single coefficient is broadcast differently (refuted part)"
  },
  {
   "property": "C23",
   "status": "proved",
   "theorems": [
    "mv_frontier_efficient",
    "mv_frontier_returned",
    "cvar_frontier_efficient"
   ],
   "note": ""
  },
  {
   "property": "C24",
   "status": "proved",
   "theorems": [
    "max_sharpe_optimal",
    "max_sharpe_long_only_positive",
    "max_sharpe_box_always_raises_refuted",
    "max_sharpe_feasible_refuted",
    "max_sharpe_negative_is_worst_refuted"
   ],
   "note": ""
  },
  {
   "property": "C25",
   "status": "proved",
   "theorems": [
    "robust_lambda_worst_case",
    "robust_gamma_worst_case",
    "robust_norm_diagonal",
    "robust_worst_case_refuted",
    "robust_negative_rejected"
   ],
   "note": ""
  },
  {
   "property": "C26",
   "status": "proved",
   "theorems": [
    "rrp_solution_correct",
    "rrp_budgets",
    "rrp_uncorrelated_exact",
    "rrp_equal_contribution_refuted"
   ],
   "note": ""
  },
  {
   "property": "C27",
   "status": "proved",
   "theorems": [
    "frontier_shapes",
    "min_risk_selects",
    "max_return_selects",
    "tangency_selects",
    "at_risk_selects",
    "at_return_selects",
    "closest_risk_selects",
    "risk_label_unique"
   ],
   "note": ""
  },
  {
   "property": "C28",
   "status": "proved",
   "theorems": [
    "percentiles_are_ranks",
    "percentile_single",
    "at_percentile_selects",
    "at_percentile_monotone",
    "at_percentile_extremes",
    "percentile_scale_refuted"
   ],
   "note": ""
  },
  {
   "property": "C29",
   "status": "proved",
   "theorems": [
    "cvar_post_permutes",
    "cvar_post_monotone",
    "convexity_correction",
    "convexity_correction_identity",
    "reported_risk_may_understate_refuted",
    "reported_risk_may_overstate_refuted",
    "certain_gain_reported_as_risk_refuted"
   ],
   "note": ""
  },
  {
   "property": "C30",
   "status": "proved",
   "theorems": [
    "distribution_is_valid",
    "distribution_accepts_iff_consistent",
    "distribution_values",
    "distribution_names",
    "distribution_rebuild",
    "distribution_mu_alone_accepted_refuted"
   ],
   "note": ""
  },
  {
   "property": "C31",
   "status": "proved",
   "theorems": [
    "from_prices_array_iff",
    "from_prices_frame_iff",
    "from_prices_compounds",
    "from_prices_infinite_first_price_refuted",
    "from_scenarios_log"
   ],
   "note": ""
  },
  {
   "property": "C32",
   "status": "proved",
   "theorems": [
    "relaxed_fallback",
    "relaxed_at_most_nine_solves",
    "relaxed_targets_shrink"
   ],
   "note": ""
  },
  {
   "property": "C33",
   "status": "proved",
   "theorems": [
    "sample_moments_correct",
    "sample_moments_total",
    "sample_covariance_psd_for_accepted_weights_refuted",
    "moments_default_is_uniform",
    "moments_labels_are_assets",
    "moments_never_carry_scenario_labels_refuted",
    "square_labelled_data_accepted_refuted"
   ],
   "note": "PSD for genuine probabilities; weights accepted only by tolerance may break it (refuted)."
  },
  {
   "property": "C34",
   "status": "proved",
   "theorems": [
    "ledoit_wolf_convex",
    "ledoit_wolf_never_shrinks_ordinary_returns",
    "oas_convex",
    "jorion_shrinks_to_minimum_variance_mean",
    "jorion_rejects",
    "james_stein_between",
    "james_stein_between_one_asset_refuted"
   ],
   "note": ""
  },
  {
   "property": "C35",
   "status": "proved",
   "theorems": [
    "ewma_is_weighted_covariance",
    "ewma_psd_any_span_refuted"
   ],
   "note": ""
  },
  {
   "property": "C36",
   "status": "proved",
   "theorems": [
    "robust_means_within_range",
    "median_of_means_affine",
    "median_of_means_blocks",
    "huber_shift_equivariant_at_zero_tolerance",
    "huber_shift_equivariant_refuted"
   ],
   "note": ""
  },
  {
   "property": "C37",
   "status": "proved",
   "theorems": [
    "niw_posterior",
    "niw_answers",
    "niw_batches",
    "niw_unbiased_batches_refuted",
    "niw_history",
    "niw_protocol",
    "niw_rejects",
    "niw_fractional_count_refuted"
   ],
   "note": "Cholesky assumed exact (and complete for totality)"
  },
  {
   "property": "C38",
   "status": "proved",
   "theorems": [
    "bl_no_views",
    "bl_mean_optimal",
    "bl_misfit_decreases",
    "bl_certain_views",
    "bl_cov_symmetric",
    "bl_cov_between",
    "bl_cov_information",
    "bl_solver_exists"
   ],
   "note": "np.linalg.solve assumed exact"
  },
  {
   "property": "C39",
   "status": "proved",
   "theorems": [
    "entropy_pooling_obeys",
    "entropy_pooling_closest",
    "entropy_pooling_closest_of_all",
    "entropy_pooling_no_views",
    "entropy_pooling_normalises_rows_refuted"
   ],
   "note": "solver assumed to return multipliers meeting the first-order conditions"
  },
  {
   "property": "C40",
   "status": "proved",
   "theorems": [
    "flexible_mean_views",
    "flexible_simultaneous",
    "flexible_vol_with_mean",
    "flexible_vol_view_refuted"
   ],
   "note": "solver assumed to return multipliers meeting the first-order conditions"
  },
  {
   "property": "C41",
   "status": "proved",
   "theorems": [
    "stress_divergence",
    "stress_no_change",
    "stress_divergence_nonnegative_refuted",
    "stress_divergence_support_refuted"
   ],
   "note": ""
  },
  {
   "property": "C42",
   "status": "proved",
   "theorems": [
    "stress_label_order",
    "stress_all_weights_used_refuted"
   ],
   "note": ""
  },
  {
   "property": "C43",
   "status": "proved",
   "theorems": [
    "drawdown_means",
    "drawdown_range",
    "drawdown_pairs",
    "drawdown_quantile_counts",
    "drawdown_from_start_refuted",
    "drawdown_by_label_refuted"
   ],
   "note": "uniform draws in [0,1) assumed"
  },
  {
   "property": "C44",
   "status": "proved",
   "theorems": [
    "log_moments_round_trip",
    "simple_moments_round_trip",
    "simple2log_domain",
    "log2simple_is_lognormal",
    "log2simple_keeps_psd",
    "log2simple_mean_bounds",
    "scenario_conversions_inverse",
    "projection_linear",
    "simple2log_keeps_psd_refuted",
    "simple2log_finite_refuted"
   ],
   "note": ""
  },
  {
   "property": "C45",
   "status": "proved",
   "theorems": [
    "draw_selects_slice",
    "projection_recombines_rows",
    "projection_bounds",
    "projection_accepts_iff",
    "projection_normalises_weights_refuted",
    "bootstrap_moments",
    "paths_accumulate_rows",
    "paths_end_at_projection",
    "paths_reject_negative_weights_refuted"
   ],
   "note": ""
  },
  {
   "property": "C46",
   "status": "proved",
   "theorems": [
    "compose_accepts_iff",
    "compose_prices_by_name",
    "compose_column_order_irrelevant",
    "zero_shock",
    "taylor_formula",
    "full_repricing_additive",
    "compose_duplicate_names_refuted",
    "from_invariants_default",
    "from_invariants_dict"
   ],
   "note": ""
  },
  {
   "property": "C47",
   "status": "proved",
   "theorems": [
    "discrete_validation_iff",
    "discrete_validation_result",
    "nan_rejected_refuted"
   ],
   "note": ""
  },
  {
   "property": "C48",
   "status": "proved",
   "theorems": [
    "solver_options_restored",
    "solver_options_restored_across_threads_refuted"
   ],
   "note": ""
  },
  {
   "property": "C49",
   "status": "proved",
   "theorems": [
    "blending_never_mixes_assets",
    "blending_rejects_other_labels"
   ],
   "note": ""
  },
  {
   "property": "C50",
   "status": "proved",
   "theorems": [
    "ensemble_uses_each_specs_frontier",
    "ensemble_keeps_frontiers_of_equal_names_refuted",
    "selected_average_follows_labels",
    "selected_rejects_other_assets_refuted"
   ],
   "note": ""
  },
  {
   "property": "C51",
   "status": "proved",
   "theorems": [
    "default_folds_legal",
    "default_ensemble_two_specs_succeeds",
    "default_ensemble_single_spec_raises",
    "default_ensemble_succeeds_refuted"
   ],
   "note": ""
  },
  {
   "property": "C52",
   "status": "proved",
   "theorems": [
    "ensure_psd_repairs",
    "ensure_psd_result_psd_refuted"
   ],
   "note": ""
  },
  {
   "property": "C53",
   "status": "proved",
   "theorems": [
    "covariance_scale_equivariant",
    "ledoit_wolf_constant_correlation_scale_refuted"
   ],
   "note": ""
  },
  {
   "property": "C54",
   "status": "proved",
   "theorems": [
    "poet_preserves_variances",
    "tyler_total_variance",
    "tyler_keeps_total_variance_refuted"
   ],
   "note": ""
  },
  {
   "property": "C55",
   "status": "proved",
   "theorems": [
    "moments_use_probabilities",
    "moments_default_is_uniform",
    "moments_probabilities_matter_refuted"
   ],
   "note": ""
  },
  {
   "property": "C56",
   "status": "proved",
   "theorems": [
    "cholesky_jitter_bounded"
   ],
   "note": ""
  },
  {
   "property": "C57",
   "status": "proved",
   "theorems": [
    "robust_costs_always_raise_refuted"
   ],
   "note": ""
  },
  {
   "property": "C58",
   "status": "proved",
   "theorems": [
    "rrp_target_clipping",
    "rrp_target_homogeneous_equalities_raise_refuted"
   ],
   "note": ""
  },
  {
   "property": "C59",
   "status": "proved",
   "theorems": [
    "selectors_stateless",
    "min_risk_selector_forgets_label_refuted",
    "selector_default_label"
   ],
   "note": ""
  },
  {
   "property": "C60",
   "status": "proved",
   "theorems": [
    "to_frame_columns",
    "to_frame_raises",
    "discrete_column_ok"
   ],
   "note": ""
  },
  {
   "property": "C61",
   "status": "proved",
   "theorems": [
    "mean_variance_answers",
    "mean_variance_frontier_answers",
    "mean_cvar_answers",
    "mean_cvar_frontier_answers"
   ],
   "note": "solvers assumed exact and complete"
  },
  {
   "property": "C62",
   "status": "proved",
   "theorems": [
    "cholesky_factor_exists",
    "cholesky_psd_never_fails",
    "robust_lambda_answers",
    "robust_gamma_answers"
   ],
   "note": "solvers assumed exact and complete"
  },
  {
   "property": "C63",
   "status": "proved",
   "theorems": [
    "risk_parity_answers",
    "risk_parity_always_answers",
    "risk_parity_target_answers"
   ],
   "note": "solvers assumed exact and complete"
  },
  {
   "property": "C64",
   "status": "proved",
   "theorems": [
    "every_result_satisfies_constraints",
    "constructor_arguments_honoured",
    "unconstrained_wrapper_refuted"
   ],
   "note": "solvers assumed exact"
  },
  {
   "property": "C65",
   "status": "proved",
   "theorems": [
    "min_variance_at_return_optimal",
    "min_variance_at_return_reaches_target",
    "min_variance_log_short_target_refuted"
   ],
   "note": "solvers assumed exact"
  },
  {
   "property": "C66",
   "status": "proved",
   "theorems": [
    "min_cvar_at_return_optimal",
    "min_cvar_reported_return_refuted"
   ],
   "note": "solvers assumed exact"
  },
  {
   "property": "C67",
   "status": "proved",
   "theorems": [
    "variance_frontier_efficient",
    "wrapper_cvar_frontier_efficient"
   ],
   "note": "solvers assumed exact"
  },
  {
   "property": "C68",
   "status": "proved",
   "theorems": [
    "robust_lambda_frontier_optimal",
    "penalty_grid_accepts"
   ],
   "note": "solvers assumed exact"
  },
  {
   "property": "C69",
   "status": "proved",
   "theorems": [
    "robust_gamma_portfolio_optimal",
    "robust_gamma_reports_log_return_refuted"
   ],
   "note": "solvers assumed exact"
  },
  {
   "property": "C70",
   "status": "proved",
   "theorems": [
    "relaxed_risk_parity_result",
    "relaxed_low_target_refuted"
   ],
   "note": "solvers assumed exact"
  },
  {
   "property": "C71",
   "status": "proved",
   "theorems": [
    "relaxed_risk_parity_frontier_result",
    "multiplier_grid_accepts"
   ],
   "note": "solvers assumed exact"
  },
  {
   "property": "C72",
   "status": "proved",
   "theorems": [
    "from_moments_stores",
    "from_moments_accepts",
    "from_robust_posterior_stores",
    "from_scenarios_stores"
   ],
   "note": ""
  },
  {
   "property": "C73",
   "status": "proved",
   "theorems": [
    "constructor_checks_costs",
    "per_call_costs_unchecked_refuted"
   ],
   "note": ""
  },
  {
   "property": "C74",
   "status": "proved",
   "theorems": [
    "min_variance_at_return_answers",
    "variance_frontier_answers",
    "min_cvar_at_return_answers",
    "cvar_frontier_answers",
    "robust_frontier_answers",
    "robust_gamma_portfolio_answers",
    "relaxed_risk_parity_answers",
    "relaxed_risk_parity_frontier_answers"
   ],
   "note": "solvers assumed exact and complete"
  },
  {
   "property": "C75",
   "status": "proved",
   "theorems": [
    "niw_labels",
    "niw_sample_labels_refuted",
    "niw_prior_columns_refuted"
   ],
   "note": ""
  },
  {
   "property": "C76",
   "status": "proved",
   "theorems": [
    "niw_estimators",
    "niw_mean_radius",
    "niw_sigma_radius",
    "niw_radii_levels"
   ],
   "note": "chi-square quantile is a parameter, non-negative and non-decreasing"
  },
  {
   "property": "C77",
   "status": "proved",
   "theorems": [
    "bundle_agrees"
   ],
   "note": ""
  },
  {
   "property": "C78",
   "status": "proved",
   "theorems": [
    "mean_uncertainty_units",
    "mean_uncertainty_exact_refuted"
   ],
   "note": ""
  },
  {
   "property": "C79",
   "status": "proved",
   "theorems": [
    "bl_omega",
    "bl_single_view_confidence",
    "bl_single_view_confidence_no_tau",
    "bl_single_view_default",
    "bl_extreme_confidence",
    "bl_docstring_confidence_refuted"
   ],
   "note": "np.linalg.solve assumed exact"
  },
  {
   "property": "C80",
   "status": "proved",
   "theorems": [
    "bl_accepts",
    "bl_errors",
    "bl_rejects",
    "bl_labels",
    "bl_label_resolution",
    "bl_unlabelled_positions",
    "bl_vector_views",
    "bl_exactly_one_prior_refuted",
    "bl_self_view_refuted",
    "bl_negative_tau_refuted",
    "bl_length_checked_refuted",
    "bl_no_views_formula_refuted"
   ],
   "note": "np.linalg.solve assumed complete"
  },
  {
   "property": "C81",
   "status": "proved",
   "theorems": [
    "bl_equilibrium",
    "bl_weights_scale",
    "bl_weights_untouched_refuted"
   ],
   "note": ""
  },
  {
   "property": "C82",
   "status": "proved",
   "theorems": [
    "entropy_pooling_answers",
    "entropy_pooling_refuses",
    "entropy_pooling_requests"
   ],
   "note": "solver assumed sound, and complete for the positive part"
  },
  {
   "property": "C83",
   "status": "proved",
   "theorems": [
    "entropy_pooling_solver_irrelevant",
    "entropy_pooling_prior_scale",
    "entropy_pooling_tolerance",
    "dual_gradient_correct",
    "dual_optimum_sound"
   ],
   "note": ""
  },
  {
   "property": "C84",
   "status": "proved",
   "theorems": [
    "flexible_chain",
    "flexible_one_kind_mode",
    "flexible_sequential_keeps_refuted",
    "flexible_quantile_keeps_refuted"
   ],
   "note": "solver assumed sound"
  },
  {
   "property": "C85",
   "status": "proved",
   "theorems": [
    "flexible_quantile_views"
   ],
   "note": "solver assumed sound"
  },
  {
   "property": "C86",
   "status": "proved",
   "theorems": [
    "flexible_cvar_view"
   ],
   "note": "solver and sort assumed sound"
  },
  {
   "property": "C87",
   "status": "proved",
   "theorems": [
    "flexible_rank_mean",
    "flexible_rank_holds",
    "flexible_rank_mutates_refuted"
   ],
   "note": "solver assumed sound"
  },
  {
   "property": "C88",
   "status": "proved",
   "theorems": [
    "flexible_vector_views",
    "flexible_vector_forms",
    "flexible_accepts_valid",
    "flexible_single_asset_refuted"
   ],
   "note": ""
  },
  {
   "property": "C89",
   "status": "proved",
   "theorems": [
    "flexible_prior",
    "flexible_moment_prior",
    "flexible_moments",
    "flexible_positive",
    "flexible_no_views"
   ],
   "note": ""
  },
  {
   "property": "C90",
   "status": "proved",
   "theorems": [
    "stress_measures",
    "stress_measures_unique",
    "stress_columns"
   ],
   "note": "argsort assumed to sort"
  },
  {
   "property": "C91",
   "status": "proved",
   "theorems": [
    "stress_accepts",
    "stress_errors",
    "stress_mismatch_value_error_refuted"
   ],
   "note": ""
  },
  {
   "property": "C92",
   "status": "proved",
   "theorems": [
    "linear_map_means",
    "linear_map_effect",
    "linear_map_matrix"
   ],
   "note": "argsort assumed to sort"
  },
  {
   "property": "C93",
   "status": "proved",
   "theorems": [
    "decay_stress",
    "decay_stress_accepts",
    "kernel_stress",
    "pooling_stress"
   ],
   "note": "argsort and solver assumed sound"
  },
  {
   "property": "C94",
   "status": "proved",
   "theorems": [
    "performance_means",
    "performance_accepts",
    "performance_is_nominal_stress",
    "performance_uses_all_weights_refuted",
    "performance_mapping_refuted",
    "confidence_label_refuted"
   ],
   "note": "argsort assumed to sort"
  },
  {
   "property": "C95",
   "status": "proved",
   "theorems": [
    "scenario_pnl_means",
    "scenario_pnl_accepts",
    "scenario_pnl_missing_label_refuted"
   ],
   "note": ""
  },
  {
   "property": "C96",
   "status": "proved",
   "theorems": [
    "horizon_table",
    "horizon_labels_distinct",
    "horizon_accepts",
    "horizon_row_means",
    "horizon_row_accepts",
    "horizon_row_seed",
    "horizon_row_seed_draws"
   ],
   "note": "uniform draws in [0,1) assumed"
  },
  {
   "property": "C97",
   "status": "proved",
   "theorems": [
    "invariants_nominal",
    "invariants_stressed",
    "invariants_views_by_label_refuted"
   ],
   "note": "uniform draws in [0,1) assumed"
  },
  {
   "property": "C98",
   "status": "proved",
   "theorems": [
    "data_accepts",
    "data_errors",
    "data_shape"
   ],
   "note": ""
  },
  {
   "property": "C99",
   "status": "proved",
   "theorems": [
    "data_exact",
    "data_compounds",
    "data_column_order",
    "data_default_columns",
    "data_agrees_with_from_prices"
   ],
   "note": ""
  },
  {
   "property": "C100",
   "status": "proved",
   "theorems": [
    "data_gaps",
    "data_gap_growth_refuted",
    "data_finite_refuted",
    "data_negative_price_refuted"
   ],
   "note": ""
  },
  {
   "property": "C101",
   "status": "proved",
   "theorems": [
    "weights_series_iff",
    "weights_series_values"
   ],
   "note": ""
  },
  {
   "property": "C102",
   "status": "proved",
   "theorems": [
    "selector_accepted_iff",
    "spec_selector_picks",
    "selector_case_insensitive",
    "unknown_selector_option_ignored",
    "misspelt_selector_option_rejected_refuted"
   ],
   "note": "first run of the selector; numbers given as strings not modelled"
  },
  {
   "property": "C103",
   "status": "proved",
   "theorems": [
    "mean_variance_optimiser_calls",
    "cvar_optimiser_calls",
    "robust_optimiser_calls",
    "risk_parity_optimiser_calls",
    "optimiser_names",
    "unknown_optimiser_reported_late",
    "unknown_optimiser_rejected_early_refuted",
    "foreign_option_rejected"
   ],
   "note": ""
  },
  {
   "property": "C104",
   "status": "proved",
   "theorems": [
    "source_precedence",
    "scenario_source",
    "moments_source",
    "moments_source_accepts",
    "row_probabilities_by_label",
    "square_table_rejected",
    "usable_probabilities_accepted_refuted",
    "covariance_definite_refuted"
   ],
   "note": "least eigenvalue assumed correct; the estimators are a parameter"
  },
  {
   "property": "C105",
   "status": "proved",
   "theorems": [
    "projection_steps",
    "projection_synonyms_refuted"
   ],
   "note": ""
  },
  {
   "property": "C106",
   "status": "proved",
   "theorems": [
    "spec_respects_constraints",
    "distribution_from_returns_built",
    "wrapper_spec_ignores_settings",
    "wrapper_spec_sound",
    "wrapper_spec_keeps_constraints_refuted"
   ],
   "note": "solvers assumed exact"
  },
  {
   "property": "C107",
   "status": "proved",
   "theorems": [
    "ensemble_respects_constraints",
    "default_ensemble_answers"
   ],
   "note": "solvers assumed exact; for answers, complete"
  },
  {
   "property": "C108",
   "status": "proved",
   "theorems": [
    "ensemble_argument",
    "none_in_a_list_refuted",
    "ensemble_accessors"
   ],
   "note": "ASCII strings"
  },
  {
   "property": "C109",
   "status": "proved",
   "theorems": [
    "stack_portfolios_respects_constraints",
    "stack_portfolios_labels",
    "percentile_selections",
    "available_measures_accepted",
    "samples_agree"
   ],
   "note": "the stacking solver is assumed to return feasible points"
  },
  {
   "property": "C110",
   "status": "proved",
   "theorems": [
    "glasso_inverse_pair"
   ],
   "note": "eigh, inv and least eigenvalue assumed exact (shown to exist by the spectral theorem)"
  },
  {
   "property": "C111",
   "status": "proved",
   "theorems": [
    "glasso_fit",
    "glasso_uncentred",
    "glasso_shift"
   ],
   "note": "exact arithmetic and routines"
  },
  {
   "property": "C112",
   "status": "proved",
   "theorems": [
    "glasso_progress",
    "glasso_fixed_point",
    "glasso_converges",
    "glasso_errors",
    "glasso_refusals"
   ],
   "note": "exact arithmetic; solutions characterised by their stationarity conditions"
  },
  {
   "property": "C113",
   "status": "proved",
   "theorems": [
    "glasso_small_penalty",
    "glasso_sparse_refuted"
   ],
   "note": "exact arithmetic and routines"
  },
  {
   "property": "C114",
   "status": "proved",
   "theorems": [
    "glasso_auto",
    "glasso_folds"
   ],
   "note": "the log-determinant routine is arbitrary"
  },
  {
   "property": "C115",
   "status": "proved",
   "theorems": [
    "poet_factors_principal"
   ],
   "note": "eigh assumed exact (exists by the spectral theorem), argsort a sort; exact arithmetic"
  },
  {
   "property": "C116",
   "status": "proved",
   "theorems": [
    "poet_low_rank_plus_sparse"
   ],
   "note": "same oracles; least-eigenvalue routine of the PSD repair exact"
  },
  {
   "property": "C117",
   "status": "proved",
   "theorems": [
    "poet_factor_count",
    "poet_auto_finds_factors_refuted"
   ],
   "note": "same oracles"
  },
  {
   "property": "C118",
   "status": "proved",
   "theorems": [
    "estimator_names"
   ],
   "note": "ASCII names"
  },
  {
   "property": "C119",
   "status": "proved",
   "theorems": [
    "estimate_moments_cov_psd"
   ],
   "note": "linear-algebra oracles exact (shown to exist); nonlinshrink arbitrary; exact arithmetic"
  },
  {
   "property": "C120",
   "status": "proved",
   "theorems": [
    "estimate_moments_choices_independent",
    "estimate_moments_default_uniform",
    "estimate_moments_ignored_probabilities_refuted"
   ],
   "note": "default p: N <> 1 and T >= 1"
  },
  {
   "property": "C121",
   "status": "proved",
   "theorems": [
    "estimate_moments_labels",
    "estimate_moments_single_asset_refuted"
   ],
   "note": ""
  },
  {
   "property": "C122",
   "status": "proved",
   "theorems": [
    "estimate_moments_mean_within_range"
   ],
   "note": "random permutation arbitrary; exact arithmetic"
  },
  {
   "property": "C123",
   "status": "proved",
   "theorems": [
    "estimate_moments_shift",
    "estimate_moments_shift_refuted"
   ],
   "note": "Huber under shifts: C36; exact arithmetic"
  },
  {
   "property": "C124",
   "status": "proved",
   "theorems": [
    "posterior_moments_niw_values",
    "posterior_moments_niw_agree"
   ],
   "note": "Cholesky oracle exact; exact arithmetic"
  },
  {
   "property": "C125",
   "status": "proved",
   "theorems": [
    "fp_var_near_quantile",
    "fp_var_default_level_refuted"
   ],
   "note": "binary64 round-to-nearest-even via Flocq, no overflow; (2T+6)*2^-53 <= confidence"
  },
  {
   "property": "C126",
   "status": "proved",
   "theorems": [
    "fp_cvar_accurate"
   ],
   "note": "binary64, no overflow; confidence at least (2T+6)*2^-53 away from 0 and 1"
  },
  {
   "property": "C127",
   "status": "proved",
   "theorems": [
    "fp_pnl_error"
   ],
   "note": "binary64, no overflow"
  },
  {
   "property": "C128",
   "status": "proved",
   "theorems": [
    "fa_leftover_accurate",
    "fa_cost_within_budget"
   ],
   "note": "binary64, no overflow; prices and lots in the moderate range stated"
  },
  {
   "property": "C129",
   "status": "proved",
   "theorems": [
    "fa_greedy_terminates"
   ],
   "note": "binary64, no overflow; milp an arbitrary parameter"
  },
  {
   "property": "C130",
   "status": "proved",
   "theorems": [
    "fa_greedy_never_overspends",
    "fa_large_budget_raises_refuted"
   ],
   "note": "binary64, no overflow; the MILP fallback is the only excluded mode"
  },
  {
   "property": "C131",
   "status": "proved",
   "theorems": [
    "fw_normalize_valid"
   ],
   "note": "binary64, no overflow"
  },
  {
   "property": "C132",
   "status": "proved",
   "theorems": [
    "fw_normalize_positive",
    "fw_strict_zero_refuted"
   ],
   "note": "binary64, no overflow"
  },
  {
   "property": "C133",
   "status": "proved",
   "theorems": [
    "fw_generated_valid",
    "fw_scenario_probs_normalised"
   ],
   "note": "binary64, no overflow; np.exp a parameter: non-negative, monotone, exp(0)=1; squaring rounded once"
  },
  {
   "property": "C134",
   "status": "proved",
   "theorems": [
    "fw_exp_decay_monotone",
    "fw_exp_decay_zero_refuted"
   ],
   "note": "np.exp a parameter"
  },
  {
   "property": "C135",
   "status": "proved",
   "theorems": [
    "fw_hhi_accurate"
   ],
   "note": "binary64, no overflow; probabilities summing to one within 1/2"
  },
  {
   "property": "C136",
   "status": "proved",
   "theorems": [
    "fq_variance_accurate"
   ],
   "note": "binary64, no overflow"
  },
  {
   "property": "C137",
   "status": "proved",
   "theorems": [
    "fq_volatility_accurate",
    "fq_volatility_long_only",
    "fq_volatility_nan_refuted"
   ],
   "note": "binary64, no overflow; correctly rounded square root"
  },
  {
   "property": "C138",
   "status": "proved",
   "theorems": [
    "plot_shows_frontiers",
    "line_unique"
   ],
   "note": "risks and returns finite reals; styling not modelled"
  },
  {
   "property": "C139",
   "status": "proved",
   "theorems": [
    "plot_marks_portfolios",
    "marker_texts_faithful",
    "highlight_min_risk_is_selector",
    "highlight_max_return_is_selector",
    "highlight_tangency_is_selector",
    "highlight_tangency_alternate_refuted"
   ],
   "note": ""
  },
  {
   "property": "C140",
   "status": "proved",
   "theorems": [
    "plot_accepts_exactly",
    "plot_errors"
   ],
   "note": "frontiers with at least one portfolio"
  },
  {
   "property": "C141",
   "status": "proved",
   "theorems": [
    "grid_shows",
    "grid_complete",
    "grid_accepts",
    "grid_drops_unlabelled_refuted",
    "grid_legend_all_refuted"
   ],
   "note": ""
  },
  {
   "property": "C142",
   "status": "proved",
   "theorems": [
    "weight_bars",
    "weight_bars_frame_refuted",
    "weight_bars_vertical_labels_refuted"
   ],
   "note": "kinds bar and barh"
  },
  {
   "property": "C143",
   "status": "proved",
   "theorems": [
    "robust_path_points",
    "param_impact_lines",
    "param_impact_ax_refuted",
    "robust_surface_points",
    "string_parameter_raises"
   ],
   "note": "one metadata dictionary per portfolio"
  },
  {
   "property": "C144",
   "status": "proved",
   "theorems": [
    "report_shows",
    "report_accepts_exactly",
    "report_tangency_refuted",
    "report_dot_off_curve_refuted"
   ],
   "note": ""
  },
  {
   "property": "C145",
   "status": "proved",
   "theorems": [
    "axes_are_principal",
    "projection_faithful",
    "projection_small"
   ],
   "note": ""
  },
  {
   "property": "C146",
   "status": "proved",
   "theorems": [
    "surface_is_ellipsoid",
    "segments_are_axes",
    "ellipsoid_level_unique",
    "segments_miss_surface_refuted"
   ],
   "note": ""
  },
  {
   "property": "C147",
   "status": "proved",
   "theorems": [
    "rows_shown",
    "figure_shows"
   ],
   "note": ""
  },
  {
   "property": "C148",
   "status": "proved",
   "theorems": [
    "figure_accepts_exactly",
    "labels_are_shares",
    "labels_match_axes",
    "labels_two_assets_refuted"
   ],
   "note": ""
  },
  {
   "property": "C149",
   "status": "proved",
   "theorems": [
    "mv_inexact",
    "mv_inexact_close",
    "exact_is_inexact"
   ],
   "note": "distance bound: given Lagrange multipliers and when the first solve answers"
  },
  {
   "property": "C150",
   "status": "proved",
   "theorems": [
    "mean_cvar_inexact"
   ],
   "note": ""
  },
  {
   "property": "C151",
   "status": "proved",
   "theorems": [
    "mv_frontier_inexact",
    "cvar_frontier_inexact",
    "frontier_inexact_monotone",
    "frontier_inexact_raises_refuted"
   ],
   "note": ""
  },
  {
   "property": "C152",
   "status": "proved",
   "theorems": [
    "max_sharpe_inexact"
   ],
   "note": ""
  },
  {
   "property": "C153",
   "status": "proved",
   "theorems": [
    "robust_lambda_inexact",
    "robust_gamma_inexact"
   ],
   "note": "Cholesky factorisation exact"
  },
  {
   "property": "C154",
   "status": "proved",
   "theorems": [
    "rrp_inexact"
   ],
   "note": "Cholesky factorisation exact"
  },
  {
   "property": "C155",
   "status": "proved",
   "theorems": [
    "fa_report_faithful"
   ],
   "note": "binary64, no overflow"
  },
  {
   "property": "C156",
   "status": "proved",
   "theorems": [
    "fa_greedy_exhausts"
   ],
   "note": "binary64, no overflow"
  },
  {
   "property": "C157",
   "status": "proved",
   "theorems": [
    "milp_inexact",
    "milp_inexact_on_tick",
    "milp_inexact_raises_refuted",
    "milp_exact_is_inexact"
   ],
   "note": "optimality clause: long-only inputs"
  },
  {
   "property": "C158",
   "status": "proved",
   "theorems": [
    "stacking_inexact",
    "stacking_inexact_constraints",
    "stacking_frontiers_inexact"
   ],
   "note": ""
  },
  {
   "property": "C159",
   "status": "proved",
   "theorems": [
    "every_result_nearly_satisfies_constraints",
    "near_satisfies_zero",
    "exact_env_is_near"
   ],
   "note": "Cholesky factorisation and sorting exact"
  },
  {
   "property": "C160",
   "status": "proved",
   "theorems": [
    "min_variance_inexact",
    "variance_frontier_nearly_efficient"
   ],
   "note": "frontier: quadratic solver answers whenever an optimum exists"
  },
  {
   "property": "C161",
   "status": "proved",
   "theorems": [
    "min_cvar_inexact",
    "cvar_frontier_nearly_efficient"
   ],
   "note": "proportional costs non-negative"
  },
  {
   "property": "C162",
   "status": "proved",
   "theorems": [
    "robust_frontier_nearly_optimal",
    "robust_gamma_portfolio_inexact"
   ],
   "note": "Cholesky factorisation exact"
  },
  {
   "property": "C163",
   "status": "proved",
   "theorems": [
    "relaxed_risk_parity_inexact",
    "relaxed_risk_parity_frontier_inexact"
   ],
   "note": "Cholesky factorisation exact"
  },
  {
   "property": "C164",
   "status": "proved",
   "theorems": [
    "untouched_arrays_repeatable",
    "arrays_now_probabilities_then",
    "first_answers",
    "copied_arguments_repeatable",
    "session_like_new",
    "wrapper_isolated_from_writes_refuted",
    "distribution_stays_valid_refuted"
   ],
   "note": "which arguments numpy shares with the caller is an input of the model"
  },
  {
   "property": "C165",
   "status": "proved",
   "theorems": [
    "session_respects_constraints",
    "estimated_moments_stay",
    "moments_follow_scenarios_refuted"
   ],
   "note": "exact solvers"
  },
  {
   "property": "C166",
   "status": "proved",
   "theorems": [
    "tuple_selection_first",
    "series_selection_kept",
    "array_selection_labelled"
   ],
   "note": ""
  },
  {
   "property": "C167",
   "status": "proved",
   "theorems": [
    "dictionary_only_grows",
    "no_ranking_no_change",
    "earlier_rankings_persist",
    "earlier_rankings_hold",
    "repeated_call_same",
    "ranked_assets_required",
    "ranking_recorded",
    "failed_call_harmless_refuted"
   ],
   "note": ""
  },
  {
   "property": "C168",
   "status": "proved",
   "theorems": [
    "weights_session_answers",
    "weights_session_proportions",
    "failed_call_keeps_weights_refuted"
   ],
   "note": "exact reals; weights that do not sum to zero"
  },
  {
   "property": "C169",
   "status": "proved",
   "theorems": [
    "entropy_pooling_near_optimal",
    "entropy_pooling_solver_tolerance",
    "entropy_pooling_converges"
   ],
   "note": "exact reals apart from the solver"
  },
  {
   "property": "C170",
   "status": "proved",
   "theorems": [
    "flexible_mean_views_within",
    "flexible_mean_views_near_optimal",
    "flexible_mean_views_solver_tolerance"
   ],
   "note": "exact reals apart from the solver"
  },
  {
   "property": "C171",
   "status": "proved",
   "theorems": [
    "bl_function_is_processor",
    "bl_function_single_view",
    "bl_function_needs_confidences",
    "bl_function_same_defaults_refuted"
   ],
   "note": "exact reals"
  },
  {
   "property": "C172",
   "status": "proved",
   "theorems": [
    "rrp_misfit_raises",
    "rrp_one_dimensional_row_raises",
    "rrp_arrays_respected",
    "rrp_arrays_programme",
    "rrp_nested_rows_refuted",
    "rrp_missing_bound_refuted"
   ],
   "note": "finite entries; Cholesky factorisation exact where cited"
  },
  {
   "property": "C173",
   "status": "proved",
   "theorems": [
    "flexible_all_views_within",
    "flexible_vol_with_mean_within",
    "flexible_all_views_near_optimal",
    "flexible_all_views_solver_tolerance"
   ],
   "note": "exact reals apart from the solver; prior weights summing to one"
  },
  {
   "property": "C174",
   "status": "proved",
   "theorems": [
    "no_specs_raises",
    "ensemble_collects",
    "selected_average_weights",
    "frontier_average_weights"
   ],
   "note": ""
  },
  {
   "property": "C175",
   "status": "proved",
   "theorems": [
    "view_helpers_mean",
    "strict_views_are_weak",
    "above_is_strict_refuted"
   ],
   "note": ""
  },
  {
   "property": "C176",
   "status": "proved",
   "theorems": [
    "discrete_method_names",
    "discrete_invalid_data_raises",
    "discrete_unknown_option_raises",
    "discrete_milp_options",
    "discrete_fallback_options_forwarded",
    "fallback_option_errors_reported_refuted",
    "discrete_keyword_call_accounting"
   ],
   "note": "ASCII method names; values of the wrong type count as TypeError"
  },
  {
   "property": "C177",
   "status": "proved",
   "theorems": [
    "foreign_estimator_option_raises",
    "sample_option_raises_refuted"
   ],
   "note": ""
  },
  {
   "property": "C178",
   "status": "proved",
   "theorems": [
    "stacking_outcome",
    "stacking_within_range",
    "leave_one_out_order_irrelevant",
    "stacking_order_irrelevant_refuted"
   ],
   "note": "exact reals; solver returns feasible points"
  },
  {
   "property": "C179",
   "status": "proved",
   "theorems": [
    "milp_lots_round_the_solution"
   ],
   "note": "exact rationals"
  }
 ]
}