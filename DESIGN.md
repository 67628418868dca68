# Formal model of Py-vAllocation — design

## Trusted base

* **Coq 8.16.1's kernel** (`coqc`).  No kernel check is switched off, there is no plugin of ours, no
  `Axiom`/`Parameter`/section-less `Variable`, no `Admitted`, no functor or module type of ours.
* **Axioms.**  `Print Assumptions` is run in the `*Properties.v` files below every property theorem.
  It reports only axioms of the Coq *standard library*.  The table at the end gives, for each
  theorem, exactly which ones, by these letters (`[-]` = "Closed under the global context"):

  | letter | axiom | where it comes from |
  |---|---|---|
  | D | `ClassicalDedekindReals.sig_forall_dec` | construction of the reals |
  | N | `ClassicalDedekindReals.sig_not_dec` | construction of the reals |
  | F | `FunctionalExtensionality.functional_extensionality_dep` | reals; equality of index functions |
  | C | `Classical_Prop.classic` | `ln`/`exp`/continuity lemmas, case splits on real statements |
  | E | `ClassicalEpsilon.constructive_indefinite_description` | choosing a concrete oracle (`best_chol`, `best_solve`, `best_minimize`) in satisfiability examples; attained optima |

  A whole-library audit (`vcheck`) additionally lists symbols that are opaque module *fields* inside the
  standard library and not logical assumptions of our theorems: `Reals.Rdefinitions.RbaseSymbolsImpl.*`,
  `RinvImpl.*`, `ssr.ssrunder.Under_rel.*`.
* **The tie between model and Python code** is our reading of /repo.  Every model definition cites the
  file and lines it models, and says where it simplifies.

## Number systems and data

* **`Q`** (exact, computable) for decision logic: probability validation (with an explicit NaN/±inf
  layer `pyfloat`), discrete allocation, folds and exposure stacking.  Every finite IEEE
  double is a rational, so inputs are represented exactly; rounding of intermediate results is modelled only in the Fp, Fa, Fw and Fq files.
* **`R`** for exp/log/sqrt and for linear algebra (moments, optimisation programmes, frontiers, NIW,
  Black–Litterman, entropy pooling, projection, performance, stress tests).
* Vectors and matrices are lists where the code's shape checks matter, and index functions
  (`nat -> R`, with an explicit size) inside linear algebra.  Shape checks, label alignment and
  raised exceptions are explicit branches returning `Err e` of the exception monad in `Err.v`.
* pandas labels are strings or positions; `Series.reindex`, `index.equals`, `get_indexer`, duplicate
  detection are modelled as list operations.

## External components (oracles)

cvxopt (`lp`, `qp`, `conelp`), `scipy.optimize.milp/minimize`, LAPACK (`solve`, `inv`, `eigh`, `cholesky`),
`argsort`, `numpy.random` are not modelled as algorithms.  They are function parameters of the model;
whatever a theorem needs of them ("the solver returned an optimum of the programme it was given",
"`cholesky` returns a lower-triangular factor or raises") is an explicit hypothesis of that theorem, and the
*programme handed to the solver* is modelled exactly.  The hypotheses are shown to be satisfiable by concrete oracles:
`ExistProperties.best_chol`, `LinLib.best_solve`, `EpProofs5.best_minimize`, `FrProperties.rsort_sorts`, and by attained
optima (`ExistLib`).  `argsort` is any sorting permutation where the code does not ask for
stability (so results hold for every tie-break) and a stable insertion sort where it does.

## Layout

`XModel.v` the model; `XSpec.v` specification vocabulary independent of the model; `XProofs*.v` lemmas;
`XProperties*.v` property theorems, their `Print Assumptions`, and concrete examples meeting their hypotheses.
`Err.v`, `QBase.v`, `RBase.v`, `SortLib.v`, `QpBase.v`, `PsdLib.v`, `LinLib.v`, `ExistLib.v` are libraries.

| X | code modelled |
|---|---|
| Prob, ProbR | `probabilities.py` (validation over `pyfloat`; kernels, entropy pooling weights, ENS, KL over R) |
| Risk | `utils/functions.py` (VaR, CVaR, volatility, PnL statistics) |
| Cons | `utils/constraints.py` |
| Disc (Model, Api, Call, Exit, Milp) | `discrete_allocation.py` (greedy, MILP encoding/decoding, validation, dispatch) |
| Ens, Asm | `ensembles.py`, `utils/weights.py` (averaging, exposure stacking, folds, assembly, selections) |
| Opt, Exist | `optimization.py` (mean–variance, CVaR, robust, relaxed risk parity programmes and retries) |
| Fr | `PortfolioFrontier` and frontier construction in `portfolioapi.py` |
| Dist, Wr | `AssetsDistribution`, `PortfolioWrapper` in `portfolioapi.py` |
| Mom | `moments.py`, `utils/validation.py` |
| Niw | `bayesian.py` |
| Bl, Ep, Fv | `views.py` (Black–Litterman, entropy pooling, FlexibleViews) |
| St | `stress.py`, `utils/performance.py` |
| Conv, Proj | `utils/projection.py` |
| DataModel | utils/data_helpers.py: whole file (frames as named columns; index values not represented) |
| SpecModel | ensembles.py: make_portfolio_spec, EnsembleSpec, EnsembleResult, assemble_portfolio_ensemble's entry, _build_selector, _resolve_optimiser, _build_distribution, _apply_projection, _normalise_ensemble_argument, stack_portfolios, risk_percentile_selections; portfolioapi.py: make_ensemble_spec, assemble_ensembles, to_samples, available_risk_measures (ASCII strings; estimators a parameter; metadata and logging left out) |
| GlModel | moments.py: _soft_threshold, _graphical_lasso_admm, sparse_precision_glasso (labels left out; eigh/inv/pinv/slogdet are parameters) |
| PoModel | moments.py: factor_covariance_poet in full (labels left out; eigh and argsort are parameters) |
| EmModel, EmModel2 | moments.py: estimate_moments, shrink_covariance_nls (package function a parameter), robust_mean_* over columns, posterior_moments_niw, posterior_moments_niw_with_uncertainty; strings, keyword dictionaries and labels included |
| FpLib, FpModel | utils/functions.py: portfolio_var, portfolio_cvar in binary64 (Flocq `round radix2 (FLT_exp (-1074) 53) ZnearestE`; no overflow, infinities or NaN; `np.sum` is any summation tree) |
| FaModel | discrete_allocation.py: greedy loop, _build_result in binary64 (same conventions; milp a parameter) |
| FwModel | probabilities.py: normalize_probability_vector, generate_uniform/exp_decay/gaussian_kernel, HHI; portfolioapi.py:142-158, 1225-1229, all in binary64 (np.exp a parameter) |
| FqModel | utils/functions.py: portfolio_variance, portfolio_volatility in binary64 (inner products in any order, fused or not; NaN is None) |
| PlModel | plotting.py:45-226, 229-703, 902-1004: plot_frontiers, plot_frontiers_grid, plot_weights, plot_robust_path, plot_param_impact, plot_robust_surface, plot_frontier_report (drawn data and labels; no styling) |
| Pl3Model | plotting.py:83-168, 706-899: _project_to_3d, _ellipsoid_mesh, plot_assumptions_3d (drawn data and label percentages; reals, exact eigen-decomposition) |
| MemModel | portfolioapi.py:73-228, 712-804, 1114-1176: which attributes of AssetsDistribution/PortfolioWrapper are the caller's arrays; sessions of writes and method calls |
| BookModel | views.py:594-613, 1342-1348: what FlexibleViewsProcessor and BlackLittermanProcessor leave in the caller's dictionary and weights array, successful or not; sessions of calls |
| BfModel | moments.py:1074-1118, defaults of views.py:1291-1305: posterior_moments_black_litterman |
| RxModel | optimization.py:241-261, 970-1060, 1223-1261: raw arrays of RelaxedRiskParity, cvxopt conversion, shape checks |

## Not modelled

Floating-point overflow, infinities and NaN arithmetic (rounding is modelled in the Fp, Fa, Fw and Fq files only, through Flocq's
generic binary64 format; every other model computes exactly); numpy/pandas dtype coercion corner cases (object arrays, strings to numbers);
text of log messages and warnings; styling in `plotting.py` (colours, sizes, grids, legends' placement); `__repr__`; the internals of the external solvers; running time.
Functions of the modelled files that have no model definition are listed here:
`bayesian.py`: `_to_numpy`, `_wrap_matrix_like`, `_wrap_vector`, `_wrap_matrix`;
`discrete_allocation.py`: `as_series`;
`ensembles.py`: `_stack_frontiers`, `_frontier_selection_size`, `relaxed_rp`, `_callable`, `_tangency`, `_min`, `_max`, `_risk`, `_risk_match`, `_risk_pct`, `_column`;
`moments.py`: `_wrap_matrix`, `_wrap_loadings`, `_fit`;
`optimization.py`: `_init_constraints`, `_assert_optimal`, `solve_lambda_variant`, `solve_gamma_variant`;
`portfolioapi.py`: `relaxed_risk_parity_portfolio_with_diagnostics`, `_distribution_factory`;
`stress.py`: `_transform`;
`views.py`: `_validate_finite`, `get_scenarios`, `get_posterior_probabilities`;
`utils/constraints.py`: `_stack`;
`utils/functions.py`: `_ensure_weights_matrix`;
`utils/projection.py`: `_to_numpy`, `_wrap_vector`, `_wrap_matrix`, `_reprice`, `_combined`.

## Properties, models, methods, theorems

`properties.jsonl` has the statements.  Where the code violates the property one would expect, the theorem carries
the suffix `_refuted` and exhibits a witness, next to the part that does hold; the property's statement says so.

| id | property | status | model and method | theorems |
|---|---|---|---|---|
| C01 | Probability vectors are validated exactly | proved | ProbModel: case analysis on pyfloat, induction on lists | ProbProperties: `normalize_accepts_exactly_probability_vectors` [-], `resolve_is_normalize_plus_length` [-], `resolve_returns_distribution` [-] |
| C02 | Normalised probabilities sum to one | proved | ProbModel: case analysis on pyfloat, induction on lists | ProbProperties: `normalize_sums_to_one_up_to_isclose` [-], `normalize_sums_to_exactly_one_refuted` [-] |
| C03 | Exponential-decay probabilities follow the half-life law | proved | ProbModel: case analysis on pyfloat, induction on lists; ProbRModel: exp/ln algebra, Gibbs inequality, Cauchy–Schwarz by induction | ProbRProperties: `exp_decay_half_life_law` [CDFN], `exp_decay_half_at_half_life` [CDFN], `exp_decay_monotone` [CDFN], `exp_decay_rejects_empty_refuted` [CDFN]<br>ProbProperties: `uniform_probabilities_correct` [-] |
| C04 | Gaussian-kernel probabilities are a distribution peaked at the target | proved | ProbRModel: exp/ln algebra, Gibbs inequality, Cauchy–Schwarz by induction | ProbRProperties: `gaussian_kernel_distribution` [CDFN], `gaussian_kernel_peaks_at_target` [CDFN], `gaussian_kernel_total` [CDFN] |
| C05 | Effective number of scenarios (entropy) is between 1 and S | proved | ProbRModel: exp/ln algebra, Gibbs inequality, Cauchy–Schwarz by induction | ProbRProperties: `effective_scenarios_entropy_bounds` [CDFN], `effective_scenarios_entropy_max_iff_uniform` [CDFN], `effective_scenarios_entropy_min_iff_point_mass` [CDFN] |
| C06 | Effective number of scenarios (HHI) is between 1 and S | proved | ProbRModel: exp/ln algebra, Gibbs inequality, Cauchy–Schwarz by induction | ProbRProperties: `effective_scenarios_hhi_bounds` [DF], `effective_scenarios_hhi_max_iff_uniform` [DF], `effective_scenarios_hhi_min_iff_point_mass` [DF] |
| C07 | portfolio_variance is a variance | proved | MomModel: quadratic forms as weighted sums of squares, eigen/solve oracles | MomProperties: `portfolio_variance_is_variance` [DFN] |
| C08 | portfolio_var is the loss quantile | proved | RiskModel: any sorting permutation, cumulative sums | RiskProperties: `var_is_loss_quantile` [DF], `loss_quantile_unique` [DF], `var_cvar_accept` [DF], `var_cvar_reject` [DF], `var_rejects_bad_probabilities_refuted` [DF] |
| C09 | portfolio_cvar is the exact tail expectation and is coherent | proved | RiskModel: any sorting permutation, cumulative sums | RiskProperties: `cvar_is_rockafellar_uryasev` [DF], `cvar_between_var_and_worst` [DF], `cvar_subadditive` [DF], `cvar_monotone` [DF] |
| C10 | VaR/CVaR scale and translate with the portfolio | proved | RiskModel: any sorting permutation, cumulative sums | RiskProperties: `var_cvar_scenario_order` [DF], `var_cvar_homogeneous` [DF], `var_cvar_translate` [DF] |
| C11 | Constraint matrices mean exactly what the user asked | proved | ConsModel: induction over blocks, equivalence with row-free spec | ConsProperties: `constraint_matrices_mean_the_constraints` [DF], `default_constraints_are_the_simplex` [DF] |
| C12 | Malformed constraints are rejected, matrices are consistent | proved | ConsModel: induction over blocks, equivalence with row-free spec | ConsProperties: `constraint_matrix_shapes` [DF], `constraints_accepted_iff_well_formed` [DF], `constraints_rejected_with_clear_errors` [DF], `from_dict_ignores_unknown_keys` [D], `unbounded_warning_is_right` [DF], `constraint_matrices_finite_refuted` [DF], `unbounded_always_warned_refuted` [DF] |
| C13 | Greedy discrete allocation never overspends | proved | DiscModel: loop invariant, termination measure, encoding/decoding of the MILP | DiscProperties: `discrete_never_overspends` [-], `discrete_call_accounting` [-], `greedy_never_raises` [-], `greedy_exit_condition` [-] |
| C14 | Greedy discrete allocation terminates, and stops only when nothing useful is affordable | proved | DiscModel: loop invariant, termination measure, encoding/decoding of the MILP | DiscProperties: `discrete_call_terminates` [-], `greedy_exit_condition` [-], `greedy_default_never_uses_fallback` [-], `greedy_fallback_modes` [-] |
| C15 | MILP allocation is optimal among affordable lot allocations (long-only) | proved | DiscModel: loop invariant, termination measure, encoding/decoding of the MILP | DiscProperties: `milp_allocation_optimal` [-], `milp_feasible_if_affordable` [-], `milp_allocation_sound` [-], `milp_optimal_with_shorts_refuted` [-] |
| C16 | Discrete allocation result accounting | proved | DiscModel: loop invariant, termination measure, encoding/decoding of the MILP | DiscProperties: `discrete_call_accounting` [-], `discrete_weights_and_cash_sum_to_one` [-] |
| C17 | Ensemble weights normalise to one | proved | EnsModel: convexity, array_split arithmetic, QP objective identity | EnsProperties: `normalized_weights_sum_to_one` [DF], `weights_accepted_iff` [DF], `labelled_weights_order_irrelevant` [DF], `weights_nonnegative_refuted` [DF] |
| C18 | Averaging exposures preserves budget and bounds | proved | EnsModel: convexity, array_split arithmetic, QP objective identity | EnsProperties: `average_preserves_constraints` [DF], `average_preserves_equalities` [DF], `average_long_only_refuted` [DF] |
| C19 | Exposure stacking folds partition the samples | proved | EnsModel: convexity, array_split arithmetic, QP objective identity | EnsProperties: `folds_partition_samples` [DF], `folds_balanced_refuted` [-] |
| C20 | Exposure stacking minimises the cross-validated residual | proved | EnsModel: convexity, array_split arithmetic, QP objective identity | EnsProperties: `stacking_programme_is_cv_residual` [DF], `stacking_optimal` [DF], `stacking_preserves_constraints` [DF] |
| C21 | Mean-CVaR LP computes the Rockafellar-Uryasev CVaR | proved | OptModel: programme equivalent to specification, solver optimum as hypothesis | OptProperties: `cvar_lp_value` [DFN], `mean_cvar_portfolio_optimal` [DFN], `cvar_cost_exists` [DF], `mean_cvar_bad_alpha` [DFN], `mean_cvar_costs_need_both` [DF] |
| C22 | Mean-variance QP objective is variance plus quadratic impact | proved | OptModel: programme equivalent to specification, solver optimum as hypothesis | OptProperties: `mv_qp_meaning` [DF], `mv_portfolio_optimal` [DF], `mv_single_cost_broadcast_refuted` [DF], `mv_costs_need_both` [DF]<br>OptProperties2: `mv_retry_ridge` [DF] |
| C23 | Efficient frontier targets and monotonicity | proved | OptModel: programme equivalent to specification, solver optimum as hypothesis | OptProperties: `mv_frontier_efficient` [DFN], `mv_frontier_returned` [DFN], `cvar_frontier_efficient` [DFN] |
| C24 | max_sharpe returns a feasible maximum-Sharpe portfolio | proved | OptModel: programme equivalent to specification, solver optimum as hypothesis | OptProperties: `max_sharpe_optimal` [DFN], `max_sharpe_long_only_positive` [DFN], `max_sharpe_box_always_raises_refuted` [DFN], `max_sharpe_feasible_refuted` [CDFN], `max_sharpe_negative_is_worst_refuted` [DFN] |
| C25 | Robust optimiser penalises the mean-uncertainty norm | proved | OptModel: programme equivalent to specification, solver optimum as hypothesis | OptProperties: `robust_lambda_worst_case` [DFN], `robust_gamma_worst_case` [DFN], `robust_norm_diagonal` [DFN], `robust_worst_case_refuted` [CDFN], `robust_negative_rejected` [DFN] |
| C26 | Relaxed risk parity cones encode the risk-contribution floor | proved | OptModel: programme equivalent to specification, solver optimum as hypothesis | OptProperties: `rrp_solution_correct` [CDFN], `rrp_budgets` [DF], `rrp_uncorrelated_exact` [CDFN], `rrp_equal_contribution_refuted` [CDFN] |
| C27 | Frontier selectors return the portfolio they promise | proved | FrModel: argmin/argmax folds, hull stack invariant | FrProperties: `frontier_shapes` [-], `min_risk_selects` [DF], `max_return_selects` [DF], `tangency_selects` [DF], `at_risk_selects` [DF], `at_return_selects` [DF], `closest_risk_selects` [DF], `risk_label_unique` [-] |
| C28 | Risk percentiles are ranks | proved | FrModel: argmin/argmax folds, hull stack invariant | FrProperties: `percentiles_are_ranks` [DF], `percentile_single` [DF], `at_percentile_selects` [DF], `at_percentile_monotone` [DF], `at_percentile_extremes` [DF], `percentile_scale_refuted` [DF] |
| C29 | CVaR frontier post-processing yields a monotone convex curve | proved | FrModel: argmin/argmax folds, hull stack invariant | FrProperties: `cvar_post_permutes` [DF], `cvar_post_monotone` [DF], `convexity_correction` [DF], `convexity_correction_identity` [DF], `reported_risk_may_understate_refuted` [DF], `reported_risk_may_overstate_refuted` [DF], `certain_gain_reported_as_risk_refuted` [DF] |
| C30 | AssetsDistribution only holds valid distributions | proved | DistModel: branch analysis, induction | DistProperties: `distribution_is_valid` [DF], `distribution_accepts_iff_consistent` [DF], `distribution_values` [DF], `distribution_names` [DF], `distribution_rebuild` [DF], `distribution_mu_alone_accepted_refuted` [DF] |
| C31 | from_prices returns compound back to the prices | proved | DistModel: branch analysis, induction | DistProperties: `from_prices_array_iff` [DFN], `from_prices_frame_iff` [DFN], `from_prices_compounds` [DFN], `from_prices_infinite_first_price_refuted` [DFN], `from_scenarios_log` [DFN] |
| C32 | Relaxed risk-parity target fallback terminates and stays in range | proved | WrModel: branch by branch, oracle solver schedules | WrProperties: `relaxed_fallback` [DF], `relaxed_at_most_nine_solves` [DF], `relaxed_targets_shrink` [DF] |
| C33 | Sample moments are a mean and a PSD covariance | proved | MomModel: quadratic forms as weighted sums of squares, eigen/solve oracles | MomProperties: `sample_moments_correct` [DF], `sample_moments_total` [DF], `sample_covariance_psd_for_accepted_weights_refuted` [DF], `moments_default_is_uniform` [DF], `moments_labels_are_assets` [DF], `moments_never_carry_scenario_labels_refuted` [DF], `square_labelled_data_accepted_refuted` [DF] |
| C34 | Shrinkage estimators are convex combinations | proved | MomModel: quadratic forms as weighted sums of squares, eigen/solve oracles | MomProperties: `ledoit_wolf_convex` [DFN], `ledoit_wolf_never_shrinks_ordinary_returns` [DFN], `oas_convex` [DF], `jorion_shrinks_to_minimum_variance_mean` [DF], `jorion_rejects` [DF], `james_stein_between` [DF], `james_stein_between_one_asset_refuted` [DFN] |
| C35 | EWMA covariance is a weighted covariance with weights summing to one | proved | MomModel: quadratic forms as weighted sums of squares, eigen/solve oracles | MomProperties: `ewma_is_weighted_covariance` [DF], `ewma_psd_any_span_refuted` [DF] |
| C36 | Robust means stay within the data range | proved | MomModel: quadratic forms as weighted sums of squares, eigen/solve oracles | MomProperties: `robust_means_within_range` [CDFN], `median_of_means_affine` [DF], `median_of_means_blocks` [DF]<br>MomProperties2: `huber_shift_equivariant_at_zero_tolerance` [CDFN], `huber_shift_equivariant_refuted` [CDFN] |
| C37 | NIW update is the conjugate update | proved | NiwModel: algebra, state machine for update/getters | NiwProperties: `niw_posterior` [DF], `niw_answers` [DFN], `niw_batches` [DFN], `niw_unbiased_batches_refuted` [DF], `niw_history` [DFN], `niw_protocol` [DFN], `niw_rejects` [DF], `niw_fractional_count_refuted` [DF] |
| C38 | Black-Litterman posterior | proved | BlModel: algebra with solver specification | BlProperties: `bl_no_views` [DF], `bl_mean_optimal` [DF], `bl_misfit_decreases` [DF], `bl_certain_views` [DF], `bl_cov_symmetric` [DF], `bl_cov_between` [DF], `bl_cov_information` [DF], `bl_solver_exists` [CDEF] |
| C39 | Entropy pooling returns the KL-closest distribution satisfying the views | proved | EpModel: convex duality, Gibbs inequality | EpProperties: `entropy_pooling_obeys` [CDFN], `entropy_pooling_closest` [CDFN], `entropy_pooling_closest_of_all` [CDFN], `entropy_pooling_no_views` [CDFN], `entropy_pooling_normalises_rows_refuted` [CDEFN] |
| C40 | Views become the right linear constraints | proved | EpModel (FlexibleViews part): state machine, row semantics | FvProperties: `flexible_mean_views` [CDFN], `flexible_simultaneous` [CDFN], `flexible_vol_with_mean` [CDFN], `flexible_vol_view_refuted` [CDEFN] |
| C41 | Relative entropy reported by stress tests is non-negative | proved | StModel: induction, permutation arguments | StProperties: `stress_divergence` [CDFN], `stress_no_change` [CDFN], `stress_divergence_nonnegative_refuted` [CDFN], `stress_divergence_support_refuted` [CDFN] |
| C42 | Weight alignment in stress tests is by label | proved | StModel: induction, permutation arguments | StProperties: `stress_label_order` [CDFN], `stress_all_weights_used_refuted` [CDFN] |
| C43 | Drawdown statistics | proved | StModel: induction, permutation arguments | StProperties: `drawdown_means` [DFN], `drawdown_range` [DFN], `drawdown_pairs` [DF], `drawdown_quantile_counts` [DF], `drawdown_from_start_refuted` [DF], `drawdown_by_label_refuted` [DFN] |
| C44 | Log and simple moments round-trip | proved | ConvModel: exp/ln algebra | ConvProperties: `log_moments_round_trip` [CDFN], `simple_moments_round_trip` [CDFN], `simple2log_domain` [CDFN], `log2simple_is_lognormal` [DFN], `log2simple_keeps_psd` [DFN], `log2simple_mean_bounds` [CDFN], `scenario_conversions_inverse` [CDFN], `projection_linear` [DF], `simple2log_keeps_psd_refuted` [CDFN], `simple2log_finite_refuted` [CDFN] |
| C45 | Bootstrapped projections only recombine historical scenarios | proved | ProjModel: induction over draws | ProjProperties: `draw_selects_slice` [DF], `projection_recombines_rows` [DF], `projection_bounds` [DF], `projection_accepts_iff` [DF], `projection_normalises_weights_refuted` [DF], `bootstrap_moments` [DF], `paths_accumulate_rows` [DF], `paths_end_at_projection` [DF], `paths_reject_negative_weights_refuted` [DF] |
| C46 | Repricing maps instruments to the right risk drivers | proved | ProjModel: induction over draws | ProjProperties: `compose_accepts_iff` [D], `compose_prices_by_name` [DF], `compose_column_order_irrelevant` [DF], `zero_shock` [DFN], `taylor_formula` [DF], `full_repricing_additive` [DF], `compose_duplicate_names_refuted` [D], `from_invariants_default` [DFN], `from_invariants_dict` [DFN] |
| C47 | Discrete allocation validates its inputs | proved | DiscModel: loop invariant, termination measure, encoding/decoding of the MILP | DiscProperties: `discrete_validation_iff` [-], `discrete_validation_result` [-], `nan_rejected_refuted` [-] |
| C48 | Solver options are restored after stacking | proved | EnsModel: convexity, array_split arithmetic, QP objective identity | EnsProperties: `solver_options_restored` [-], `solver_options_restored_across_threads_refuted` [D] |
| C49 | Blending never mixes assets or risk levels | proved | EnsModel: convexity, array_split arithmetic, QP objective identity | EnsProperties: `blending_never_mixes_assets` [DF], `blending_rejects_other_labels` [DF] |
| C50 | Ensembles combine each specification's own portfolio by asset label | proved | AsmModel: branch analysis, induction over specs | AsmProperties: `ensemble_uses_each_specs_frontier` [DF], `ensemble_keeps_frontiers_of_equal_names_refuted` [DF], `selected_average_follows_labels` [DF], `selected_rejects_other_assets_refuted` [DF] |
| C51 | Default stacking fold count is usable | proved | AsmModel: branch analysis, induction over specs | AsmProperties: `default_folds_legal` [-], `default_ensemble_two_specs_succeeds` [DF], `default_ensemble_single_spec_raises` [DF], `default_ensemble_succeeds_refuted` [DF] |
| C52 | ensure_psd_matrix repairs any matrix minimally | proved | MomModel: quadratic forms as weighted sums of squares, eigen/solve oracles | MomProperties2: `ensure_psd_repairs` [DF], `ensure_psd_result_psd_refuted` [DFN] |
| C53 | Covariance estimates follow the unit of returns | proved | MomModel: quadratic forms as weighted sums of squares, eigen/solve oracles | MomProperties2: `covariance_scale_equivariant` [DFN], `ledoit_wolf_constant_correlation_scale_refuted` [DFN] |
| C54 | POET and Tyler covariances have the right scale | proved | MomModel: quadratic forms as weighted sums of squares, eigen/solve oracles | MomProperties2: `poet_preserves_variances` [DFN], `tyler_total_variance` [DFN], `tyler_keeps_total_variance_refuted` [DFN] |
| C55 | estimate_moments uses the scenario probabilities | proved | MomModel: quadratic forms as weighted sums of squares, eigen/solve oracles | MomProperties2: `moments_use_probabilities` [DFN], `moments_probabilities_matter_refuted` [DFN]<br>MomProperties: `moments_default_is_uniform` [DF] |
| C56 | Cholesky jitter is bounded and only used when needed | proved | OptModel: programme equivalent to specification, solver optimum as hypothesis | OptProperties: `cholesky_jitter_bounded` [DF] |
| C57 | RobustOptimizer with proportional costs | proved | OptModel: programme equivalent to specification, solver optimum as hypothesis | OptProperties: `robust_costs_always_raise_refuted` [DFN] |
| C58 | Relaxed risk parity target clipping | proved | OptModel: programme equivalent to specification, solver optimum as hypothesis | OptProperties: `rrp_target_clipping` [CDFN], `rrp_target_homogeneous_equalities_raise_refuted` [DFN] |
| C59 | String selectors are repeatable | proved | FrModel: argmin/argmax folds, hull stack invariant | FrProperties: `selectors_stateless` [DF], `min_risk_selector_forgets_label_refuted` [DF], `selector_default_label` [DF] |
| C60 | Tabular and discrete export pick the requested columns | proved | FrModel: argmin/argmax folds, hull stack invariant | FrProperties: `to_frame_columns` [-], `to_frame_raises` [-], `discrete_column_ok` [-] |
| C61 | Feasible mean-variance and mean-CVaR requests are answered | proved | OptModel: compactness/continuity, attained optima | ExistProperties: `mean_variance_answers` [CDEFN], `mean_variance_frontier_answers` [CDEFN], `mean_cvar_answers` [CDEFN], `mean_cvar_frontier_answers` [CDEFN] |
| C62 | Robust optimisation answers on every positive semidefinite scatter | proved | OptModel: compactness/continuity, attained optima | ExistProperties: `cholesky_factor_exists` [DFN], `cholesky_psd_never_fails` [DFN], `robust_lambda_answers` [CDEFN], `robust_gamma_answers` [CDEFN] |
| C63 | Risk parity always has an answer | proved | OptModel: compactness/continuity, attained optima | ExistProperties: `risk_parity_answers` [CDEFN], `risk_parity_always_answers` [CDEFN], `risk_parity_target_answers` [CDEFN] |
| C64 | Every wrapper result satisfies the constraints in effect | proved | WrModel: branch by branch, oracle solver schedules | WrProperties: `every_result_satisfies_constraints` [CDFN], `unconstrained_wrapper_refuted` [DFN]<br>WrProperties2: `constructor_arguments_honoured` [CDFN] |
| C65 | min_variance_at_return is optimal and honours its target | proved | WrModel: branch by branch, oracle solver schedules | WrProperties: `min_variance_at_return_optimal` [DFN], `min_variance_at_return_reaches_target` [CDFN], `min_variance_log_short_target_refuted` [CDEFN] |
| C66 | min_cvar_at_return is optimal | proved | WrModel: branch by branch, oracle solver schedules | WrProperties: `min_cvar_at_return_optimal` [DFN], `min_cvar_reported_return_refuted` [CDEFN] |
| C67 | Wrapper variance and CVaR frontiers are efficient and correctly described | proved | WrModel: branch by branch, oracle solver schedules | WrProperties: `variance_frontier_efficient` [DFN], `wrapper_cvar_frontier_efficient` [DFN] |
| C68 | Robust frontier optimises each penalty and is sorted by risk | proved | WrModel: branch by branch, oracle solver schedules | WrProperties: `robust_lambda_frontier_optimal` [DFN], `penalty_grid_accepts` [DF] |
| C69 | Robust portfolio respects its risk cap | proved | WrModel: branch by branch, oracle solver schedules | WrProperties: `robust_gamma_portfolio_optimal` [DFN], `robust_gamma_reports_log_return_refuted` [CDEFN] |
| C70 | Relaxed risk parity portfolio reports what it solved | proved | WrModel: branch by branch, oracle solver schedules | WrProperties: `relaxed_risk_parity_result` [CDFN], `relaxed_low_target_refuted` [CDFN] |
| C71 | Relaxed risk parity frontier traces the multipliers | proved | WrModel: branch by branch, oracle solver schedules | WrProperties: `relaxed_risk_parity_frontier_result` [CDFN], `multiplier_grid_accepts` [DF] |
| C72 | Wrapper factories store the moments described | proved | WrModel: branch by branch, oracle solver schedules | WrProperties: `from_moments_stores` [DFN], `from_moments_accepts` [DFN], `from_robust_posterior_stores` [DFN], `from_scenarios_stores` [DFN] |
| C73 | Transaction cost shapes are checked at construction | proved | WrModel: branch by branch, oracle solver schedules | WrProperties: `constructor_checks_costs` [DF], `per_call_costs_unchecked_refuted` [CDEFN] |
| C74 | Feasible wrapper requests are answered | proved | WrModel: branch by branch, oracle solver schedules | WrProperties: `min_variance_at_return_answers` [CDEFN], `variance_frontier_answers` [CDEFN], `min_cvar_at_return_answers` [CDEFN], `cvar_frontier_answers` [CDEFN], `robust_frontier_answers` [CDEFN], `robust_gamma_portfolio_answers` [CDEFN], `relaxed_risk_parity_answers` [CDEFN], `relaxed_risk_parity_frontier_answers` [CDEFN] |
| C75 | Bayesian posterior labels | proved | NiwModel: algebra, state machine for update/getters | NiwProperties: `niw_labels` [DF], `niw_sample_labels_refuted` [DFN], `niw_prior_columns_refuted` [DFN] |
| C76 | Credibility radii are worst cases | proved | NiwModel: algebra, state machine for update/getters | NiwProperties: `niw_estimators` [DF], `niw_mean_radius` [DFN], `niw_sigma_radius` [DFN], `niw_radii_levels` [DFN] |
| C77 | RobustBayesPosterior.from_niw agrees with the step-by-step route | proved | NiwModel: algebra, state machine for update/getters | NiwProperties: `bundle_agrees` [DFN] |
| C78 | Mean uncertainty in horizon and simple-return units | proved | NiwModel: algebra, state machine for update/getters | NiwProperties: `mean_uncertainty_units` [DFN], `mean_uncertainty_exact_refuted` [CDFN] |
| C79 | Black-Litterman view confidence | proved | BlModel: algebra with solver specification | BlProperties: `bl_omega` [DF], `bl_single_view_confidence` [DF], `bl_single_view_confidence_no_tau` [DF], `bl_single_view_default` [DF], `bl_extreme_confidence` [DF], `bl_docstring_confidence_refuted` [DF] |
| C80 | Black-Litterman requests: accepted, rejected, labelled | proved | BlModel: algebra with solver specification | BlProperties: `bl_accepts` [DF], `bl_errors` [DF], `bl_rejects` [DF], `bl_labels` [DF], `bl_label_resolution` [C], `bl_unlabelled_positions` [CD], `bl_vector_views` [-], `bl_exactly_one_prior_refuted` [CDEF], `bl_self_view_refuted` [DF], `bl_negative_tau_refuted` [CDEF], `bl_length_checked_refuted` [CDEF], `bl_no_views_formula_refuted` [CDEF] |
| C81 | Black-Litterman equilibrium prior | proved | BlModel: algebra with solver specification | BlProperties: `bl_equilibrium` [DF], `bl_weights_scale` [DF], `bl_weights_untouched_refuted` [CDEF] |
| C82 | Entropy pooling answers exactly when views are attainable | proved | EpModel: convex duality, Gibbs inequality | EpProperties: `entropy_pooling_answers` [CDEFN], `entropy_pooling_refuses` [CDFN], `entropy_pooling_requests` [CDFN] |
| C83 | Entropy pooling does not depend on the solver | proved | EpModel: convex duality, Gibbs inequality | EpProperties: `entropy_pooling_solver_irrelevant` [CDFN], `entropy_pooling_prior_scale` [CDFN], `entropy_pooling_tolerance` [CDFN], `dual_gradient_correct` [DFN], `dual_optimum_sound` [CDFN] |
| C84 | Order of flexible views | proved | EpModel (FlexibleViews part): state machine, row semantics | FvProperties: `flexible_chain` [CDFN], `flexible_one_kind_mode` [CDFN], `flexible_sequential_keeps_refuted` [CDEFN], `flexible_quantile_keeps_refuted` [CDEFN] |
| C85 | Quantile views of flexible views | proved | EpModel (FlexibleViews part): state machine, row semantics | FvProperties: `flexible_quantile_views` [CDFN] |
| C86 | CVaR views of flexible views | proved | EpModel (FlexibleViews part): state machine, row semantics | FvProperties: `flexible_cvar_view` [CDFN] |
| C87 | Ranking views | proved | EpModel (FlexibleViews part): state machine, row semantics | FvProperties: `flexible_rank_mean` [CDFN], `flexible_rank_holds` [CDFN], `flexible_rank_mutates_refuted` [CDFN] |
| C88 | Forms and validation of flexible views | proved | EpModel (FlexibleViews part): state machine, row semantics | FvProperties: `flexible_vector_views` [CDFN], `flexible_vector_forms` [CDFN], `flexible_accepts_valid` [CDFN], `flexible_single_asset_refuted` [CDFN] |
| C89 | Prior and posterior moments of flexible views | proved | EpModel (FlexibleViews part): state machine, row semantics | FvProperties: `flexible_prior` [CDFN], `flexible_moment_prior` [CDFN], `flexible_moments` [CDFN], `flexible_positive` [CDFN], `flexible_no_views` [CDFN] |
| C90 | Stress tests report the measures of every portfolio | proved | StModel: induction, permutation arguments | StProperties: `stress_measures` [CDFN], `stress_measures_unique` [DF], `stress_columns` [CDFN] |
| C91 | Stress test requests: accepted and rejected | proved | StModel: induction, permutation arguments | StProperties: `stress_accepts` [CDFN], `stress_errors` [CDFN], `stress_mismatch_value_error_refuted` [CDFN] |
| C92 | Linear stress transforms | proved | StModel: induction, permutation arguments | StProperties: `linear_map_means` [DF], `linear_map_effect` [CDFN], `linear_map_matrix` [CDFN] |
| C93 | Time-decay, kernel and entropy-pooling stresses | proved | StModel: induction, permutation arguments | StProperties: `decay_stress` [CDFN], `decay_stress_accepts` [CDFN], `kernel_stress` [CDFN], `pooling_stress` [CDFN] |
| C94 | Performance reports | proved | StModel: induction, permutation arguments | StProperties: `performance_means` [CDFN], `performance_accepts` [CDFN], `performance_is_nominal_stress` [CDFN], `performance_uses_all_weights_refuted` [CDFN], `performance_mapping_refuted` [CDFN], `confidence_label_refuted` [DF] |
| C95 | Scenario P&L | proved | StModel: induction, permutation arguments | StProperties: `scenario_pnl_means` [D], `scenario_pnl_accepts` [D], `scenario_pnl_missing_label_refuted` [D] |
| C96 | Horizon reports | proved | StModel: induction, permutation arguments | StProperties: `horizon_table` [CDFN], `horizon_labels_distinct` [-], `horizon_accepts` [CDFN], `horizon_row_means` [CDFN], `horizon_row_accepts` [CDFN], `horizon_row_seed` [CDFN], `horizon_row_seed_draws` [CDFN] |
| C97 | Stresses of invariants | proved | StModel: induction, permutation arguments | StProperties: `invariants_nominal` [CDFN], `invariants_stressed` [CDFN], `invariants_views_by_label_refuted` [CDFN] |
| C98 | Turning a price table into returns: which requests are served | proved | DataModel: induction over rows and columns | DataProperties: `data_accepts` [CDFN], `data_errors` [CDFN], `data_shape` [CDFN] |
| C99 | Returns carry the price history exactly | proved | DataModel: induction over rows and columns | DataProperties: `data_exact` [CDFN], `data_compounds` [CDFN], `data_column_order` [CDFN], `data_default_columns` [CDFN], `data_agrees_with_from_prices` [CDFN] |
| C100 | Missing prices are handled return by return | proved | DataModel: induction over rows and columns | DataProperties: `data_gaps` [CDFN], `data_gap_growth_refuted` [CDFN], `data_finite_refuted` [CDFN], `data_negative_price_refuted` [CDFN] |
| C101 | Weights become a labelled series | proved | DataModel: induction over rows and columns | DataProperties: `weights_series_iff` [-], `weights_series_values` [-] |
| C102 | Selector names of portfolio specs | proved | SpecModel: case analysis, convexity of the constraint set, composition with FrModel/WrModel/AsmModel | SpecProperties: `selector_accepted_iff` [DFN], `spec_selector_picks` [DFN], `selector_case_insensitive` [DFN], `unknown_selector_option_ignored` [DFN], `misspelt_selector_option_rejected_refuted` [CDEFN] |
| C103 | Optimiser names of portfolio specs | proved | SpecModel: case analysis, convexity of the constraint set, composition with FrModel/WrModel/AsmModel | SpecProperties2: `mean_variance_optimiser_calls` [DFN], `cvar_optimiser_calls` [DFN], `robust_optimiser_calls` [DFN], `risk_parity_optimiser_calls` [DFN]<br>SpecProperties: `optimiser_names` [DFN], `unknown_optimiser_reported_late` [DFN], `unknown_optimiser_rejected_early_refuted` [CDEFN], `foreign_option_rejected` [DFN] |
| C104 | The distribution behind a spec | proved | SpecModel: case analysis, convexity of the constraint set, composition with FrModel/WrModel/AsmModel | SpecProperties: `source_precedence` [DFN], `scenario_source` [DFN], `moments_source` [DFN], `moments_source_accepts` [DFN], `row_probabilities_by_label` [DFN], `square_table_rejected` [DFN], `usable_probabilities_accepted_refuted` [DFN], `covariance_definite_refuted` [DFN] |
| C105 | Projection options of a spec | proved | SpecModel: case analysis, convexity of the constraint set, composition with FrModel/WrModel/AsmModel | SpecProperties: `projection_steps` [DFN], `projection_synonyms_refuted` [DFN] |
| C106 | A spec's portfolios satisfy its constraints | proved | SpecModel: case analysis, convexity of the constraint set, composition with FrModel/WrModel/AsmModel | SpecProperties: `spec_respects_constraints` [CDFN], `distribution_from_returns_built` [DFN], `wrapper_spec_ignores_settings` [DFN], `wrapper_spec_sound` [CDFN], `wrapper_spec_keeps_constraints_refuted` [CDEFN] |
| C107 | Ensembles of specs satisfy the common constraints | proved | SpecModel: case analysis, convexity of the constraint set, composition with FrModel/WrModel/AsmModel | SpecProperties: `ensemble_respects_constraints` [CDFN], `default_ensemble_answers` [CDEFN] |
| C108 | Which ensembles are computed | proved | SpecModel: case analysis, convexity of the constraint set, composition with FrModel/WrModel/AsmModel | SpecProperties: `ensemble_argument` [DF], `none_in_a_list_refuted` [CDEFN], `ensemble_accessors` [-] |
| C109 | Frontier helpers for blending | proved | SpecModel: case analysis, convexity of the constraint set, composition with FrModel/WrModel/AsmModel | SpecProperties: `stack_portfolios_respects_constraints` [DF], `percentile_selections` [DF], `available_measures_accepted` [-], `samples_agree` [-]<br>SpecProperties3: `stack_portfolios_labels` [DF] |
| C110 | Graphical lasso covariance and precision | proved | GlModel: ADMM step equations, spectral theorem (EigLib), monotone-operator (Lyapunov) argument, induction over iterations and candidates | GlProperties: `glasso_inverse_pair` [CDEFN] |
| C111 | Graphical lasso stays close to the sample covariance | proved | GlModel: ADMM step equations, spectral theorem (EigLib), monotone-operator (Lyapunov) argument, induction over iterations and candidates | GlProperties: `glasso_fit` [CDEFN], `glasso_uncentred` [CDEFN], `glasso_shift` [DFN] |
| C112 | Graphical lasso iterations approach the solution | proved | GlModel: ADMM step equations, spectral theorem (EigLib), monotone-operator (Lyapunov) argument, induction over iterations and candidates | GlProperties: `glasso_progress` [CDEFN], `glasso_fixed_point` [DFN], `glasso_converges` [CDEFN], `glasso_errors` [CDEFN], `glasso_refusals` [DFN] |
| C113 | Small graphical lasso penalties | proved | GlModel: ADMM step equations, spectral theorem (EigLib), monotone-operator (Lyapunov) argument, induction over iterations and candidates | GlProperties: `glasso_small_penalty` [CDEFN], `glasso_sparse_refuted` [CDEFN] |
| C114 | Automatic graphical lasso penalty | proved | GlModel: ADMM step equations, spectral theorem (EigLib), monotone-operator (Lyapunov) argument, induction over iterations and candidates | GlProperties: `glasso_auto` [DFN], `glasso_folds` [-] |
| C115 | POET factors are principal components | proved | PoModel: eigen-decomposition reordered by argsort, Rayleigh argument for the principal directions, trace and multiplicity argument for the automatic count | PoProperties: `poet_factors_principal` [CDFN] |
| C116 | POET is low rank plus sparse | proved | PoModel: eigen-decomposition reordered by argsort, Rayleigh argument for the principal directions, trace and multiplicity argument for the automatic count | PoProperties: `poet_low_rank_plus_sparse` [CDFN] |
| C117 | POET factor count | proved | PoModel: eigen-decomposition reordered by argsort, Rayleigh argument for the principal directions, trace and multiplicity argument for the automatic count | PoProperties: `poet_factor_count` [CDFN], `poet_auto_finds_factors_refuted` [CDFN] |
| C118 | Estimator names | proved | EmModel/EmModel2: case analysis over the dispatched estimators, reusing the per-estimator theorems | EmProperties: `estimator_names` [CDFN] |
| C119 | Every estimated covariance is usable | proved | EmModel/EmModel2: case analysis over the dispatched estimators, reusing the per-estimator theorems | EmProperties: `estimate_moments_cov_psd` [CDEFN] |
| C120 | Mean and covariance choices do not interact | proved | EmModel/EmModel2: case analysis over the dispatched estimators, reusing the per-estimator theorems | EmProperties: `estimate_moments_choices_independent` [CDFN], `estimate_moments_default_uniform` [CDFN], `estimate_moments_ignored_probabilities_refuted` [CDFN] |
| C121 | Moment labels | proved | EmModel/EmModel2: case analysis over the dispatched estimators, reusing the per-estimator theorems | EmProperties: `estimate_moments_labels` [CDFN], `estimate_moments_single_asset_refuted` [CDFN] |
| C122 | Means stay within the observed range | proved | EmModel/EmModel2: case analysis over the dispatched estimators, reusing the per-estimator theorems | EmProperties2: `estimate_moments_mean_within_range` [CDFN] |
| C123 | Moments under shifts of the returns | proved | EmModel/EmModel2: case analysis over the dispatched estimators, reusing the per-estimator theorems | EmProperties2: `estimate_moments_shift` [CDFN], `estimate_moments_shift_refuted` [CDFN] |
| C124 | NIW posterior moments functions | proved | EmModel/EmModel2: case analysis over the dispatched estimators, reusing the per-estimator theorems | EmProperties3: `posterior_moments_niw_values` [DF], `posterior_moments_niw_agree` [DFN] |
| C125 | VaR in floating point | proved | FpModel: the same code with every operation rounded to binary64 (Flocq generic format), forward error analysis by induction over summation trees; exact binary computation for the refutation | FpProperties: `fp_var_near_quantile` [CDFN], `fp_var_default_level_refuted` [CDFN] |
| C126 | CVaR in floating point | proved | FpModel: the same code with every operation rounded to binary64 (Flocq generic format), forward error analysis by induction over summation trees; exact binary computation for the refutation | FpProperties: `fp_cvar_accurate` [CDFN] |
| C127 | Scenario P&L in floating point | proved | FpModel: the same code with every operation rounded to binary64 (Flocq generic format), forward error analysis by induction over summation trees; exact binary computation for the refutation | FpProperties: `fp_pnl_error` [CDFN] |
| C128 | Reported leftover cash in floating point | proved | FaModel: greedy loop and result construction in binary64; loop variant for termination, error invariant over iterations; exact binary computation for the refutation | FaProperties: `fa_leftover_accurate` [CDFN], `fa_cost_within_budget` [CDFN] |
| C129 | Greedy allocation terminates in floating point | proved | FaModel: greedy loop and result construction in binary64; loop variant for termination, error invariant over iterations; exact binary computation for the refutation | FaProperties: `fa_greedy_terminates` [CDFN] |
| C130 | Greedy allocation does not overspend in floating point | proved | FaModel: greedy loop and result construction in binary64; loop variant for termination, error invariant over iterations; exact binary computation for the refutation | FaProperties: `fa_greedy_never_overspends` [CDFN], `fa_large_budget_raises_refuted` [CDFN] |
| C131 | Normalised probabilities in floating point | proved | FwModel: probability vectors in binary64; forward error analysis over summation trees, monotonicity of rounding, exact binary computation for the refutations | FwProperties: `fw_normalize_valid` [CDFN] |
| C132 | Strictly positive normalisation in floating point | proved | FwModel: probability vectors in binary64; forward error analysis over summation trees, monotonicity of rounding, exact binary computation for the refutations | FwProperties: `fw_normalize_positive` [CDFN], `fw_strict_zero_refuted` [CDFN] |
| C133 | Generated probabilities pass later checks in floating point | proved | FwModel: probability vectors in binary64; forward error analysis over summation trees, monotonicity of rounding, exact binary computation for the refutations | FwProperties: `fw_generated_valid` [CDFN], `fw_scenario_probs_normalised` [CDFN] |
| C134 | Exponential decay in floating point | proved | FwModel: probability vectors in binary64; forward error analysis over summation trees, monotonicity of rounding, exact binary computation for the refutations | FwProperties: `fw_exp_decay_monotone` [CDFN], `fw_exp_decay_zero_refuted` [CDFN] |
| C135 | Herfindahl scenario count in floating point | proved | FwModel: probability vectors in binary64; forward error analysis over summation trees, monotonicity of rounding, exact binary computation for the refutations | FwProperties: `fw_hhi_accurate` [CDFN] |
| C136 | Portfolio variance in floating point | proved | FqModel: quadratic form in binary64 over inner-product trees with optional fused multiply-add; induction over trees and columns | FqProperties: `fq_variance_accurate` [CDFN] |
| C137 | Portfolio volatility in floating point | proved | FqModel: quadratic form in binary64 over inner-product trees with optional fused multiply-add; induction over trees and columns | FqProperties: `fq_volatility_accurate` [CDFN], `fq_volatility_long_only` [CDFN], `fq_volatility_nan_refuted` [CDFN] |
| C138 | A frontier plot shows every supplied frontier, and nothing else | proved | PlModel: what each plotting function draws, as data; case analysis over arguments, induction over the frontiers, ordered-dictionary invariants for the grid, permutation and sortedness of bars; selector agreement through uniqueness of the first best portfolio | PlProperties: `plot_shows_frontiers` [DF], `line_unique` [-] |
| C139 | Highlighted points are the portfolios the selectors return | proved | PlModel: what each plotting function draws, as data; case analysis over arguments, induction over the frontiers, ordered-dictionary invariants for the grid, permutation and sortedness of bars; selector agreement through uniqueness of the first best portfolio | PlProperties: `plot_marks_portfolios` [DF], `marker_texts_faithful` [DF], `highlight_min_risk_is_selector` [DF], `highlight_max_return_is_selector` [DF], `highlight_tangency_is_selector` [DF], `highlight_tangency_alternate_refuted` [DF] |
| C140 | Which frontier plots are accepted | proved | PlModel: what each plotting function draws, as data; case analysis over arguments, induction over the frontiers, ordered-dictionary invariants for the grid, permutation and sortedness of bars; selector agreement through uniqueness of the first best portfolio | PlProperties: `plot_accepts_exactly` [DF], `plot_errors` [DF] |
| C141 | Grid panels partition the frontiers by group | proved | PlModel: what each plotting function draws, as data; case analysis over arguments, induction over the frontiers, ordered-dictionary invariants for the grid, permutation and sortedness of bars; selector agreement through uniqueness of the first best portfolio | PlProperties: `grid_shows` [DF], `grid_complete` [DF], `grid_accepts` [DF], `grid_drops_unlabelled_refuted` [DF], `grid_legend_all_refuted` [DF] |
| C142 | Weight bars are the largest weights in order | proved | PlModel: what each plotting function draws, as data; case analysis over arguments, induction over the frontiers, ordered-dictionary invariants for the grid, permutation and sortedness of bars; selector agreement through uniqueness of the first best portfolio | PlProperties: `weight_bars` [D], `weight_bars_frame_refuted` [-], `weight_bars_vertical_labels_refuted` [-] |
| C143 | Parameter plots pair every portfolio with its own parameter | proved | PlModel: what each plotting function draws, as data; case analysis over arguments, induction over the frontiers, ordered-dictionary invariants for the grid, permutation and sortedness of bars; selector agreement through uniqueness of the first best portfolio | PlProperties: `robust_path_points` [DF], `param_impact_lines` [DF], `param_impact_ax_refuted` [D], `robust_surface_points` [D], `string_parameter_raises` [DF] |
| C144 | A frontier report shows one portfolio consistently | proved | PlModel: what each plotting function draws, as data; case analysis over arguments, induction over the frontiers, ordered-dictionary invariants for the grid, permutation and sortedness of bars; selector agreement through uniqueness of the first best portfolio | PlProperties: `report_shows` [DF], `report_accepts_exactly` [DF], `report_tangency_refuted` [DF], `report_dot_off_curve_refuted` [DF] |
| C145 | The 3-D assumptions view looks along the directions of greatest variance | proved | Pl3Model: the projected mean, covariance and scenarios, the mesh, the axes and the labels, over an exact eigen-decomposition; spectral algebra (Pl3Proofs), symmetrisation, floors of evenly spaced positions; every routine that returns an exact decomposition is covered | Pl3Properties: `axes_are_principal` [DF], `projection_faithful` [DF], `projection_small` [DF] |
| C146 | The drawn ellipsoid is the n_std contour of the plotted covariance | proved | Pl3Model: the projected mean, covariance and scenarios, the mesh, the axes and the labels, over an exact eigen-decomposition; spectral algebra (Pl3Proofs), symmetrisation, floors of evenly spaced positions; every routine that returns an exact decomposition is covered | Pl3Properties: `surface_is_ellipsoid` [DFN], `segments_are_axes` [DFN], `ellipsoid_level_unique` [DF], `segments_miss_surface_refuted` [DFN] |
| C147 | Scenario clouds are thinned evenly and show true scenarios | proved | Pl3Model: the projected mean, covariance and scenarios, the mesh, the axes and the labels, over an exact eigen-decomposition; spectral algebra (Pl3Proofs), symmetrisation, floors of evenly spaced positions; every routine that returns an exact decomposition is covered | Pl3Properties: `rows_shown` [DF], `figure_shows` [DFN] |
| C148 | Which 3-D views are accepted and what the axis labels say | proved | Pl3Model: the projected mean, covariance and scenarios, the mesh, the axes and the labels, over an exact eigen-decomposition; spectral algebra (Pl3Proofs), symmetrisation, floors of evenly spaced positions; every routine that returns an exact decomposition is covered | Pl3Properties: `figure_accepts_exactly` [DFN], `labels_are_shares` [DF], `labels_match_axes` [DF], `labels_two_assets_refuted` [DF] |
| C149 | Mean-variance answers degrade gracefully with solver tolerance | proved | OptModel with solvers that satisfy constraints up to d and optimality up to e; algebra on the programmes, Lagrangian growth for distances | AxProperties: `mv_inexact` [DF], `mv_inexact_close` [DF], `exact_is_inexact` [DFN] |
| C150 | Mean-CVaR answers degrade gracefully with solver tolerance | proved | OptModel with solvers that satisfy constraints up to d and optimality up to e; algebra on the programmes, Lagrangian growth for distances | AxProperties: `mean_cvar_inexact` [DFN] |
| C151 | Frontiers degrade gracefully with solver tolerance | proved | OptModel with solvers that satisfy constraints up to d and optimality up to e; algebra on the programmes, Lagrangian growth for distances | AxProperties: `mv_frontier_inexact` [DFN], `cvar_frontier_inexact` [DFN], `frontier_inexact_monotone` [DF], `frontier_inexact_raises_refuted` [CDEFN] |
| C152 | Maximum Sharpe answers degrade gracefully with solver tolerance | proved | OptModel with solvers that satisfy constraints up to d and optimality up to e; algebra on the programmes, Lagrangian growth for distances | AxProperties: `max_sharpe_inexact` [DFN] |
| C153 | Robust answers degrade gracefully with solver tolerance | proved | OptModel with solvers that satisfy constraints up to d and optimality up to e; algebra on the programmes, Lagrangian growth for distances | AxProperties: `robust_lambda_inexact` [DFN], `robust_gamma_inexact` [DFN] |
| C154 | Relaxed risk parity answers degrade gracefully with solver tolerance | proved | OptModel with solvers that satisfy constraints up to d and optimality up to e; algebra on the programmes, Lagrangian growth for distances | AxProperties: `rrp_inexact` [CDFN] |
| C155 | Discrete allocation reports true weights and tracking error in floating point | proved | FaModel: greedy loop and result construction in binary64; loop variant for termination, error invariant over iterations; exact binary computation for the refutation | FaProperties2: `fa_report_faithful` [CDFN] |
| C156 | Greedy purchases stop only when nothing worth buying is affordable, in floating point | proved | FaModel: greedy loop and result construction in binary64; loop variant for termination, error invariant over iterations; exact binary computation for the refutation | FaProperties2: `fa_greedy_exhausts` [CDFN] |
| C157 | MILP allocation degrades gracefully with solver tolerance | proved | DiscModel with a MILP solver that satisfies rows, bounds and integrality up to tolerances; rounding and cost algebra over rationals | AmProperties: `milp_inexact` [-], `milp_inexact_on_tick` [-], `milp_inexact_raises_refuted` [-], `milp_exact_is_inexact` [-] |
| C158 | Exposure stacking degrades gracefully with solver tolerance | proved | EnsModel with a quadratic solver within tolerances; algebra on the stacking programme | AtProperties: `stacking_inexact` [DF], `stacking_inexact_constraints` [DF], `stacking_frontiers_inexact` [DF] |
| C159 | Every portfolio of the wrapper satisfies the user's constraints up to solver tolerance | proved | WrModel driven by the inexact solvers of AxSpec; the constraint matrices of ConsModel read back with slack, then the Ax bounds carried to the reported weights | AwProperties: `every_result_nearly_satisfies_constraints` [CDFN], `near_satisfies_zero` [DF], `exact_env_is_near` [DFN] |
| C160 | Wrapper variance optimisation degrades gracefully with solver tolerance | proved | WrModel driven by the inexact solvers of AxSpec; the constraint matrices of ConsModel read back with slack, then the Ax bounds carried to the reported weights | AwProperties: `min_variance_inexact` [DFN], `variance_frontier_nearly_efficient` [DFN] |
| C161 | Wrapper CVaR optimisation degrades gracefully with solver tolerance | proved | WrModel driven by the inexact solvers of AxSpec; the constraint matrices of ConsModel read back with slack, then the Ax bounds carried to the reported weights | AwProperties: `min_cvar_inexact` [DFN], `cvar_frontier_nearly_efficient` [DFN] |
| C162 | Wrapper robust optimisation degrades gracefully with solver tolerance | proved | WrModel driven by the inexact solvers of AxSpec; the constraint matrices of ConsModel read back with slack, then the Ax bounds carried to the reported weights | AwProperties: `robust_frontier_nearly_optimal` [DFN], `robust_gamma_portfolio_inexact` [DFN] |
| C163 | Wrapper relaxed risk parity degrades gracefully with solver tolerance | proved | WrModel driven by the inexact solvers of AxSpec; the constraint matrices of ConsModel read back with slack, then the Ax bounds carried to the reported weights | AwProperties: `relaxed_risk_parity_inexact` [CDFN], `relaxed_risk_parity_frontier_inexact` [CDFN] |
| C164 | A wrapper's answers depend on its inputs as they are now | proved | MemModel: a store of caller arrays, attributes that share or copy them, induction over the history; each answer re-derived as that of a new wrapper | MemProperties: `untouched_arrays_repeatable` [DFN], `arrays_now_probabilities_then` [DFN], `first_answers` [DF], `copied_arguments_repeatable` [DFN], `session_like_new` [DFN], `wrapper_isolated_from_writes_refuted` [CDEFN], `distribution_stays_valid_refuted` [CDEFN] |
| C165 | Constraints and estimated moments over a session | proved | MemModel: a store of caller arrays, attributes that share or copy them, induction over the history; each answer re-derived as that of a new wrapper | MemProperties: `session_respects_constraints` [CDFN], `estimated_moments_stay` [DFN], `moments_follow_scenarios_refuted` [CDEFN] |
| C166 | Custom selectors in ensembles | proved | SpecModel: case analysis, convexity of the constraint set, composition with FrModel/WrModel/AsmModel | SpecProperties2: `tuple_selection_first` [D], `series_selection_kept` [D], `array_selection_labelled` [D] |
| C167 | A dictionary of mean views used for several calls | proved | BookModel: the shared dictionary or array threaded through a list of calls, failed ones included; induction over the calls, composed with the Fv and Bl theorems | BookProperties: `dictionary_only_grows` [CDFN], `no_ranking_no_change` [CDFN], `earlier_rankings_persist` [CDFN], `earlier_rankings_hold` [CDFN], `repeated_call_same` [CDFN], `ranked_assets_required` [CDFN], `ranking_recorded` [DF], `failed_call_harmless_refuted` [CDEFN] |
| C168 | An array of market weights used for several calls | proved | BookModel: the shared dictionary or array threaded through a list of calls, failed ones included; induction over the calls, composed with the Fv and Bl theorems | BookProperties: `weights_session_answers` [DF], `weights_session_proportions` [DF], `failed_call_keeps_weights_refuted` [CDEF] |
| C169 | Entropy pooling with a solver that stops early | proved | approximate dual certificates: Gibbs inequality for near-optimality; monotonicity of the exponential map with the Hellinger distance for stability | EtProperties: `entropy_pooling_near_optimal` [CDFN], `entropy_pooling_solver_tolerance` [CDFN], `entropy_pooling_converges` [CDFN] |
| C170 | Mean views with a solver that stops early | proved | approximate dual certificates: Gibbs inequality for near-optimality; monotonicity of the exponential map with the Hellinger distance for stability | EtProperties: `flexible_mean_views_within` [CDFN], `flexible_mean_views_near_optimal` [CDFN], `flexible_mean_views_solver_tolerance` [CDFN] |
| C171 | The Black-Litterman convenience function | proved | argument-by-argument reduction to the processor's model; case analysis over the construction up to the confidence check | BfProperties: `bl_function_is_processor` [DF], `bl_function_single_view` [DF], `bl_function_needs_confidences` [DF], `bl_function_same_defaults_refuted` [CDEF] |
| C172 | Relaxed risk parity with raw arrays | proved | case analysis over the conversions and checks; reduction to the cone programme of OptModel | RxProperties: `rrp_misfit_raises` [DFN], `rrp_one_dimensional_row_raises` [DFN], `rrp_arrays_respected` [CDFN], `rrp_arrays_programme` [DFN], `rrp_nested_rows_refuted` [CDEFN], `rrp_missing_bound_refuted` [CDEFN] |
| C173 | Views of several kinds with a solver that stops early | proved | no new model: EpModel; each row of the simultaneous programme translated back to the raw moment it is about, then the tolerance and near-optimality lemmas of Et | EvProperties: `flexible_all_views_within` [CDFN], `flexible_vol_with_mean_within` [CDFN], `flexible_all_views_near_optimal` [CDFN], `flexible_all_views_solver_tolerance` [CDFN] |
| C174 | An ensemble of specs is made of what its specs return | proved | no new model: SpecModel and AsmModel; results read back spec by spec, averages by the label and column theorems of AsmModel and EnsModel | SpecProperties3: `no_specs_raises` [-], `ensemble_collects` [DF], `selected_average_weights` [DF], `frontier_average_weights` [DF] |
| C175 | View helpers mean what they say | proved | no new model: EpModel; every row built from a strict bound is the row of the weak one; Gibbs inequality for the refutation | VhProperties: `view_helpers_mean` [DF], `strict_views_are_weak` [CDFN], `above_is_strict_refuted` [CDEFN] |
| C176 | discretize_weights matches methods and options as documented | proved | DkModel: keyword dicts around DiscModel; validation reduces the call to the two allocators, then case analysis | DkProperties: `discrete_method_names` [-], `discrete_invalid_data_raises` [-], `discrete_unknown_option_raises` [-], `discrete_milp_options` [-], `discrete_fallback_options_forwarded` [-], `fallback_option_errors_reported_refuted` [-], `discrete_keyword_call_accounting` [-] |
| C177 | Estimator options are checked against the chosen estimator | proved | no new model: EmModel; the accepted keyword lists are checked against a separate table | EmProperties4: `foreign_estimator_option_raises` [CDFN], `sample_option_raises_refuted` [CDFN] |
| C178 | Exposure stacking answers for every usable panel, within the samples' range | proved | no new model: EnsModel; compactness of the simplex for existence, a bijection of the samples for the order | StackProperties: `stacking_outcome` [CDEFN], `stacking_within_range` [DF], `leave_one_out_order_irrelevant` [DF], `stacking_order_irrelevant_refuted` [CDEFN] |
| C179 | A MILP allocation holds the solver's numbers rounded to the nearest lot | proved |  | LotProperties: `milp_lots_round_the_solution` [-] |
