{"id": "C01", "title": "Probability vectors are validated exactly", "statement": "normalize_probability_vector (and resolve_probabilities, which adds a length check against n_obs) returns a vector iff the input is non-empty, contains no NaN/inf, no negative entry and has a positive finite total (and, when strictly_positive, no zero entry); every other input raises ValueError. The result has the same length, is non-negative and is the input up to one positive factor.", "quantifier": "every list of floats including NaN and infinities, every flag value, every expected length", "why_tests_cant": "the set of malformed vectors (any position of a NaN, any sign pattern, any length) is unbounded", "anchors": [{"file": "pyvallocation/probabilities.py", "symbols": ["normalize_probability_vector", "resolve_probabilities"]}]}
{"id": "C02", "title": "Normalised probabilities sum to one", "statement": "The vector returned by normalize_probability_vector sums to exactly one whenever the input total is not within numpy's isclose tolerance of one, and otherwise to within 1e-5+1e-8 of one; a vector whose total is inside the tolerance is returned unscaled, so 'always sums to exactly one' is false.", "quantifier": "every accepted input vector", "why_tests_cant": "the boundary of the isclose band is a continuum of totals", "anchors": [{"file": "pyvallocation/probabilities.py", "symbols": ["normalize_probability_vector"]}]}
{"id": "C03", "title": "Exponential-decay probabilities follow the half-life law", "statement": "generate_exp_decay_probabilities(n, half_life) rejects half_life<=0 (n<=0 should be rejected too, but yields an empty vector); otherwise, for n>=1, it returns n strictly positive probabilities summing to one, non-decreasing towards the most recent observation, and an observation exactly half_life steps older has exactly half the weight. generate_uniform_probabilities gives n equal weights summing to one.", "quantifier": "every n>=1, every positive half-life, every pair of positions", "why_tests_cant": "all sizes and all real half-lives", "anchors": [{"file": "pyvallocation/probabilities.py", "symbols": ["generate_uniform_probabilities", "generate_exp_decay_probabilities"]}]}
{"id": "C04", "title": "Gaussian-kernel probabilities are a distribution peaked at the target", "statement": "generate_gaussian_kernel_probabilities returns strictly positive probabilities summing to one, ordered by closeness to the target: the nearer an observation is to the target, the larger its probability, and equidistant observations have equal probability.", "quantifier": "every non-empty observation vector, target and positive bandwidth", "why_tests_cant": "all sizes and real values", "anchors": [{"file": "pyvallocation/probabilities.py", "symbols": ["generate_gaussian_kernel_probabilities"]}]}
{"id": "C05", "title": "Effective number of scenarios (entropy) is between 1 and S", "statement": "For every probability vector of length S, compute_effective_number_scenarios lies in [1,S]; it equals S iff the vector is uniform, and equals 1 for a point mass.", "quantifier": "every strictly-normalised probability vector of every length", "why_tests_cant": "an inequality over a simplex of every dimension (Gibbs inequality)", "anchors": [{"file": "pyvallocation/probabilities.py", "symbols": ["compute_effective_number_scenarios"]}]}
{"id": "C06", "title": "Effective number of scenarios (HHI) is between 1 and S", "statement": "compute_effective_number_scenarios_hhi of a probability vector of length S lies in [1,S], equals S iff the vector is uniform and 1 iff it is a point mass.", "quantifier": "every probability vector of every length", "why_tests_cant": "an inequality over a simplex of every dimension", "anchors": [{"file": "pyvallocation/probabilities.py", "symbols": ["compute_effective_number_scenarios_hhi"]}]}
{"id": "C07", "title": "portfolio_variance is a variance", "statement": "portfolio_variance(e, cov) is non-negative for every positive semi-definite cov, is quadratic in the exposures, and when cov is the sample covariance of scenarios R under p it equals the p-weighted variance of the portfolio P&L R e; so portfolio_volatility squares to it.", "quantifier": "every exposure vector, every PSD matrix / scenario matrix and probability vector", "why_tests_cant": "all dimensions and real inputs", "anchors": [{"file": "pyvallocation/utils/functions.py", "symbols": ["portfolio_variance", "portfolio_volatility"]}]}
{"id": "C08", "title": "portfolio_var is the loss quantile", "statement": "For a probability vector p and confidence c, portfolio_var returns minus a scenario P&L x such that the probability of P&L strictly below x is < 1-c and the probability of P&L <= x is >= 1-c, whichever sorting permutation numpy picks for ties.", "quantifier": "every scenario set, exposure, probability vector and confidence in (0,1)", "why_tests_cant": "all sizes, ties and real inputs", "anchors": [{"file": "pyvallocation/utils/functions.py", "symbols": ["portfolio_var", "_var_cvar_preprocess", "_return_portfolio_risk"]}]}
{"id": "C09", "title": "portfolio_cvar is the exact tail expectation and is coherent", "statement": "portfolio_cvar is the exact Conditional Value-at-Risk: the minimum over c of c + E[(loss-c)^+]/(1-confidence) (probability mass at the VaR scenario is split correctly); hence it is >= portfolio_var, >= the expected loss and <= the worst loss, it is subadditive in the portfolio and monotone (a scenario-wise better portfolio never has larger CVaR).", "quantifier": "every scenario set, exposure, probability vector and confidence in (0,1)", "why_tests_cant": "all sizes, ties and real inputs", "anchors": [{"file": "pyvallocation/utils/functions.py", "symbols": ["portfolio_cvar"]}]}
{"id": "C10", "title": "VaR/CVaR scale and translate with the portfolio", "statement": "portfolio_var and portfolio_cvar do not depend on the order in which scenarios are listed, are positively homogeneous in the exposures, and adding a constant k to every scenario P&L lowers both by exactly k.", "quantifier": "every scenario set, every positive scale, every shift, every permutation of scenarios", "why_tests_cant": "all sizes and permutations", "anchors": [{"file": "pyvallocation/utils/functions.py", "symbols": ["portfolio_var", "portfolio_cvar"]}]}
{"id": "C11", "title": "Constraint matrices mean exactly what the user asked", "statement": "For every Constraints object, the (G,h,A,b) returned by to_matrices / build_G_h_A_b satisfies: w is feasible for G w<=h, A w=b iff w satisfies the listed constraints themselves (long-only, per-asset bounds, relative bounds, group bounds, extra rows, total weight).", "quantifier": "every combination of constraint fields and every weight vector", "why_tests_cant": "combinations of optional fields times all weight vectors", "anchors": [{"file": "pyvallocation/utils/constraints.py", "symbols": ["build_G_h_A_b", "Constraints.to_matrices"]}]}
{"id": "C12", "title": "Malformed constraints are rejected, matrices are consistent", "statement": "Whenever to_matrices returns, G has n columns and as many rows as h, A has n columns and as many rows as b, absent blocks are None; out-of-range asset indices and malformed specs raise.", "quantifier": "every constraint specification", "why_tests_cant": "all malformed inputs", "anchors": [{"file": "pyvallocation/utils/constraints.py", "symbols": ["build_G_h_A_b"]}]}
{"id": "C13", "title": "Greedy discrete allocation never overspends", "statement": "After greedy allocation, shares are non-negative multiples of the lot size, the cost of the shares plus leftover cash equals total_value, and leftover cash is >= 0 up to the 1e-12 affordability tolerance.", "quantifier": "every weight/price/lot-size vector and portfolio value accepted by validation", "why_tests_cant": "loop invariant over an unbounded number of greedy steps", "anchors": [{"file": "pyvallocation/discrete_allocation.py", "symbols": ["_allocate_greedy"]}]}
{"id": "C14", "title": "Greedy discrete allocation terminates, and stops only when nothing useful is affordable", "statement": "The greedy loop always terminates; on exit every asset whose holding is still below its target value by at least the loop's tolerance needs more cash for one extra lot than is left.", "quantifier": "every accepted input", "why_tests_cant": "termination and exit condition over all inputs", "anchors": [{"file": "pyvallocation/discrete_allocation.py", "symbols": ["_allocate_greedy"]}]}
{"id": "C15", "title": "MILP allocation is optimal among affordable lot allocations (long-only)", "statement": "If the MILP solver returns an optimum of the constructed programme, then no affordable integer-lot long-only allocation has a smaller tracking error plus cash penalty.", "quantifier": "every long-only accepted input and every affordable allocation", "why_tests_cant": "optimality over an unbounded integer set", "anchors": [{"file": "pyvallocation/discrete_allocation.py", "symbols": ["_allocate_milp"]}]}
{"id": "C16", "title": "Discrete allocation result accounting", "statement": "The reported result is internally consistent: achieved weights are share value over total value, leftover cash is total value minus cost of shares, achieved weights plus leftover/total sum to one, zero positions are omitted, and the tracking error is the distance between achieved and target weights.", "quantifier": "every share vector", "why_tests_cant": "all vectors", "anchors": [{"file": "pyvallocation/discrete_allocation.py", "symbols": ["_build_result", "DiscreteAllocationResult"]}]}
{"id": "C17", "title": "Ensemble weights normalise to one", "statement": "normalize_weights returns weights with sum exactly one, proportional to the input, and raises on wrong length or non-positive total; 'non-negative' promised by the docstring is not enforced.", "quantifier": "every weight vector", "why_tests_cant": "all vectors", "anchors": [{"file": "pyvallocation/utils/weights.py", "symbols": ["normalize_weights"]}]}
{"id": "C18", "title": "Averaging exposures preserves budget and bounds", "statement": "average_exposures with non-negative weights returns, asset by asset, a value between the smallest and largest sample, and if every sample satisfies a linear constraint (budget, group, long-only) so does the average.", "quantifier": "every sample matrix, every weight vector, every linear constraint", "why_tests_cant": "convexity over all inputs", "anchors": [{"file": "pyvallocation/ensembles.py", "symbols": ["average_exposures"]}]}
{"id": "C19", "title": "Exposure stacking folds partition the samples", "statement": "The L folds used by exposure_stacking are pairwise disjoint, cover every sample exactly once and are never empty; all but the last have floor(n/L) samples and the last takes the remainder (so they are not balanced: refuted); L < 2 or L > n raises.", "quantifier": "every M and L", "why_tests_cant": "all sizes", "anchors": [{"file": "pyvallocation/ensembles.py", "symbols": ["exposure_stacking"]}]}
{"id": "C20", "title": "Exposure stacking minimises the cross-validated residual", "statement": "The QP assembled by exposure_stacking has the same minimisers as the sum over folds of the squared distance between the fold mean target and the out-of-fold stacked portfolio; any returned stack is a convex combination of the samples.", "quantifier": "every sample matrix and fold count", "why_tests_cant": "all sizes and real inputs", "anchors": [{"file": "pyvallocation/ensembles.py", "symbols": ["exposure_stacking"]}]}
{"id": "C21", "title": "Mean-CVaR LP computes the Rockafellar-Uryasev CVaR", "statement": "For fixed weights the minimum over the LP's auxiliary variables of its objective is CVaR_alpha of the portfolio loss (plus proportional turnover cost |w-w0| when costs are given); w is feasible for the LP iff it satisfies the user's constraints.", "quantifier": "every scenario matrix, probabilities, alpha, constraints, costs and weights", "why_tests_cant": "all dimensions", "anchors": [{"file": "pyvallocation/optimization.py", "symbols": ["MeanCVaR.__init__", "_linear_turnover_blocks"]}]}
{"id": "C22", "title": "Mean-variance QP objective is variance plus quadratic impact", "statement": "Up to a constant independent of w the QP objective equals w'Sigma w + sum lambda_i (w_i-w0_i)^2, and the added return row is exactly mu'w >= target.", "quantifier": "every mean, covariance, costs, target and w", "why_tests_cant": "all dimensions", "anchors": [{"file": "pyvallocation/optimization.py", "symbols": ["MeanVariance", "_quadratic_turnover"]}]}
{"id": "C23", "title": "Efficient frontier targets and monotonicity", "statement": "With an exact solver each frontier column satisfies the constraints, the k-th column attains at least the k-th equally spaced target, each column has minimal risk among feasible portfolios meeting its target, and risk is non-decreasing from left to right.", "quantifier": "every convex programme, every number of portfolios", "why_tests_cant": "all sizes and all problems", "anchors": [{"file": "pyvallocation/optimization.py", "symbols": ["_FrontierMixin._frontier"]}]}
{"id": "C24", "title": "max_sharpe returns a feasible maximum-Sharpe portfolio", "statement": "The portfolio returned by MeanVariance.max_sharpe satisfies the user's constraints and no feasible portfolio has a larger Sharpe ratio. (Holds for the homogeneous constraint class with positive weight sum; refuted in general.)", "quantifier": "every mean, covariance and constraint set", "why_tests_cant": "all dimensions", "anchors": [{"file": "pyvallocation/optimization.py", "symbols": ["MeanVariance.max_sharpe"]}]}
{"id": "C25", "title": "Robust optimiser penalises the mean-uncertainty norm", "statement": "The SOCP of RobustOptimizer penalises q = sqrt(w'S w), so its value is the worst-case return over the ellipsoid. (The code uses the lower Cholesky factor un-transposed; refuted for correlated S, proved for diagonal S.)", "quantifier": "every uncertainty matrix and weight vector", "why_tests_cant": "all dimensions", "anchors": [{"file": "pyvallocation/optimization.py", "symbols": ["RobustOptimizer._solve_socp"]}]}
{"id": "C26", "title": "Relaxed risk parity cones encode the risk-contribution floor", "statement": "A point satisfies the rotated cone blocks iff x_i*zeta_i >= b_i*gamma^2, with budget row, long-only and return target; risk contributions then satisfy the stated floor.", "quantifier": "every covariance, budgets and decision vector", "why_tests_cant": "all dimensions", "anchors": [{"file": "pyvallocation/optimization.py", "symbols": ["RelaxedRiskParity.solve"]}]}
{"id": "C27", "title": "Frontier selectors return the portfolio they promise", "statement": "min_risk, max_return, tangency, at_risk, at_return, closest_risk return a column of the frontier that is optimal for the stated criterion among all columns satisfying the stated condition (the first such column), and at_risk/at_return raise InfeasibleOptimizationError iff no column qualifies; tangency ignores zero-risk columns and raises iff every risk is within 1e-8 of zero; an unknown risk label raises KeyError.", "quantifier": "every frontier and every parameter", "why_tests_cant": "all frontiers", "anchors": [{"file": "pyvallocation/portfolioapi.py", "symbols": ["PortfolioFrontier.min_risk", "PortfolioFrontier.max_return", "PortfolioFrontier.tangency", "PortfolioFrontier.at_risk", "PortfolioFrontier.at_return", "PortfolioFrontier.closest_risk"]}]}
{"id": "C28", "title": "Risk percentiles are ranks", "statement": "risk_percentiles is a bijection of the columns onto {0,1/(M-1),...,1} that respects the risk order; index_at_risk_percentile(0) is a minimum-risk and (1) or (100) a maximum-risk column; percentile inputs outside [0,100] raise; a higher percentile on the same scale never selects a less risky column. (Refuted in part: percentile=1 means 100%, so on the 0-100 scale it selects a riskier column than 2.)", "quantifier": "every frontier and percentile", "why_tests_cant": "all sizes, ties", "anchors": [{"file": "pyvallocation/portfolioapi.py", "symbols": ["PortfolioFrontier.risk_percentiles", "PortfolioFrontier._normalize_percentile", "PortfolioFrontier.index_at_risk_percentile"]}]}
{"id": "C29", "title": "CVaR frontier post-processing yields a monotone convex curve", "statement": "With enforce_convexity the reported risks are non-decreasing in return, convex, equal to the running maximum of the raw risks at both ends, at least every convex curve below that running maximum and above it by at most M*1e-12/g (g the smallest return gap); a strictly convex increasing frontier is left alone. (Refuted in part: the reported risk can understate the raw CVaR so a risk limit need not hold for the selected portfolio, can overstate it at tiny scales, and |CVaR| ranks certain gains as riskier.)", "quantifier": "every list of frontier points", "why_tests_cant": "stack algorithm over all lists", "anchors": [{"file": "pyvallocation/portfolioapi.py", "symbols": ["PortfolioWrapper.cvar_frontier"]}]}
{"id": "C30", "title": "AssetsDistribution only holds valid distributions", "statement": "If construction succeeds, stored probabilities are non-negative, finite, sum to exactly one and match the number of scenarios, mu/cov/scenarios agree on N and asset names are consistent; construction succeeds exactly on consistent inputs, and every failure is a ValueError. Supplied moments are kept, missing ones are the probability-weighted moments of the scenarios. (Refuted in part: the documented requirement of both mu and cov, or scenarios, is not enforced: mu alone is accepted.)", "quantifier": "every combination of optional inputs incl. NaN", "why_tests_cant": "all inputs", "anchors": [{"file": "pyvallocation/portfolioapi.py", "symbols": ["AssetsDistribution.__post_init__"]}]}
{"id": "C31", "title": "from_prices returns compound back to the prices", "statement": "from_prices rejects fewer than two rows, NaN and non-positive prices; otherwise the derived simple returns are > -1 and compounding them from the first price reproduces every later price. (Refuted in part: an infinite first price in a DataFrame is accepted.)", "quantifier": "every price history", "why_tests_cant": "all lengths", "anchors": [{"file": "pyvallocation/portfolioapi.py", "symbols": ["PortfolioWrapper.from_prices"]}]}
{"id": "C32", "title": "Relaxed risk-parity target fallback terminates and stays in range", "statement": "The target fallback makes at most nine solver calls, only tries targets between the requested target and the lower bound, and reports a warning iff every attempt failed.", "quantifier": "every solver behaviour (any sequence of failures)", "why_tests_cant": "all failure schedules", "anchors": [{"file": "pyvallocation/portfolioapi.py", "symbols": ["PortfolioWrapper._solve_relaxed_rp"]}]}
{"id": "C33", "title": "Sample moments are a mean and a PSD covariance", "statement": "estimate_sample_moments returns the p-weighted mean and a symmetric covariance with w'Sigma w = Var_p(R w) >= 0.", "quantifier": "every scenario matrix and probability vector", "why_tests_cant": "all dimensions", "anchors": [{"file": "pyvallocation/moments.py", "symbols": ["estimate_sample_moments"]}]}
{"id": "C34", "title": "Shrinkage estimators are convex combinations", "statement": "Ledoit-Wolf/OAS covariance estimates are delta*Target+(1-delta)*S with delta in [0,1], PSD; OAS preserves the trace; Jorion means shrink every asset towards the minimum-variance portfolio's mean with an intensity in (0,1]; James-Stein means with two or more assets lie on the segment between the sample mean and the target. (With one asset James-Stein overshoots: refuted; and the identity-target Ledoit-Wolf intensity is zero for ordinary returns: proved finding.)", "quantifier": "every input", "why_tests_cant": "all dimensions", "anchors": [{"file": "pyvallocation/moments.py", "symbols": ["shrink_covariance_ledoit_wolf", "shrink_covariance_oas", "shrink_mean_jorion", "shrink_mean_james_stein"]}]}
{"id": "C35", "title": "EWMA covariance is a weighted covariance with weights summing to one", "statement": "covariance_ewma is a PSD matrix whose implicit observation weights are positive and sum to one.", "quantifier": "every data matrix and span >= 1", "why_tests_cant": "all lengths", "anchors": [{"file": "pyvallocation/moments.py", "symbols": ["covariance_ewma"]}]}
{"id": "C36", "title": "Robust means stay within the data range", "statement": "robust_mean_huber and robust_mean_median_of_means return values between the column minimum and maximum; median of means is equivariant under positive affine maps, its blocks partition the data, and a strict minority of corrupted blocks cannot move it out of the range of the others; Huber is shift-equivariant at zero tolerance. (With a positive tolerance Huber is not shift-equivariant: refuted.)", "quantifier": "every data column", "why_tests_cant": "iteration over all inputs", "anchors": [{"file": "pyvallocation/moments.py", "symbols": ["robust_mean_huber", "robust_mean_median_of_means"]}]}
{"id": "C37", "title": "NIW update is the conjugate update", "statement": "NIWPosterior.update with whole-number counts yields T1=T0+n, nu1=nu0+n, mu1 the precision-weighted average of prior and sample mean, and the conjugate scale Sigma1, PSD whenever the inputs are; valid inputs are always answered; however the data are cut into batches, feeding them one after another equals one update with the pooled data (with the maximum-likelihood covariance; with the unbiased covariance this is refuted); accessors before an update raise RuntimeError, a second update raises, and no history of calls changes the posterior once computed; malformed inputs raise ValueError (refuted part: a fractional t0 in (0,1) is accepted but truncated to 0, and every update then fails).", "quantifier": "every prior, sample and call history", "why_tests_cant": "algebra over all dimensions, all histories", "anchors": [{"file": "pyvallocation/bayesian.py", "symbols": ["NIWPosterior"]}]}
{"id": "C38", "title": "Black-Litterman posterior", "statement": "With no views the posterior is the prior; with views it solves the BL normal equations, moves toward the views, and the posterior covariance is symmetric.", "quantifier": "every prior, views and confidences", "why_tests_cant": "all dimensions", "anchors": [{"file": "pyvallocation/views.py", "symbols": ["BlackLittermanProcessor"]}]}
{"id": "C39", "title": "Entropy pooling returns the KL-closest distribution satisfying the views", "statement": "If the dual solver returns a stationary point, entropy_pooling's posterior is positive, sums to one, satisfies every equality view and every inequality view, and no other distribution satisfying them has smaller relative entropy to the prior; with no views it is the prior. (Two provisos: the rows passed must contain the row of ones - without it the result does not obey the rows, refuted - and, because exponents are clipped at -700, minimality is over the distributions giving every scenario at least e^-700, or over all of them when the posterior itself exceeds e^-700.)", "quantifier": "every prior, view matrix", "why_tests_cant": "optimality over an infinite set", "anchors": [{"file": "pyvallocation/views.py", "symbols": ["entropy_pooling"]}]}
{"id": "C40", "title": "Views become the right linear constraints", "statement": "FlexibleViewsProcessor's posterior meets every mean view (equality, bound, range, relative, ranking) and is the closest such distribution to the prior; a volatility, variance, skewness or correlation view holds whenever the posterior moments equal the ones it was linearised around, so volatility and variance views hold exactly on assets whose mean is also fixed. (Refuted: a volatility view on its own holds - asked for 0.3, the posterior variance can be 0.2244.)", "quantifier": "every scenario prior, view set and solver meeting the first-order conditions", "why_tests_cant": "optimality over all distributions, all view sets", "anchors": [{"file": "pyvallocation/views.py", "symbols": ["FlexibleViewsProcessor"]}]}
{"id": "C41", "title": "Relative entropy reported by stress tests is non-negative", "statement": "The divergence column KL_q_p of a stress test with stressed probabilities (each side divided by its total) is at least -1e-16 per scenario; when every nominal probability is at least 1e-16 it is non-negative, zero exactly when the two probability vectors agree, and the exact relative entropy when the stressed ones are at least 1e-16 too; identical probabilities give 0 and a stressed half equal to the nominal half. (Refuted: a total within 1e-5 of one is not normalised and the divergence can be clearly negative; a divergence that should be infinite is reported as a finite number.)", "quantifier": "every pair of probability vectors and every book", "why_tests_cant": "all dimensions and probability vectors", "anchors": [{"file": "pyvallocation/stress.py", "symbols": ["_kl_divergence", "stress_test"]}]}
{"id": "C42", "title": "Weight alignment in stress tests is by label", "statement": "stress_test matches labelled weights to labelled scenario columns by label: listing the same positions and the same columns in any other order gives the same table or the same error, for any probabilities. (Refuted: a repeated weight label is not an error, all but the first are dropped.)", "quantifier": "every permutation of labelled weights and columns", "why_tests_cant": "all permutations", "anchors": [{"file": "pyvallocation/stress.py", "symbols": ["_align_weights", "stress_test"]}]}
{"id": "C43", "title": "Drawdown statistics", "statement": "drawdown_quantile simulates bootstrap paths, holds the weights from one unit of wealth, and reports the mean, the median, the requested linearly interpolated quantile and the maximum over paths of the largest relative fall from the running peak; for long-only books without leverage every statistic lies in [0,1), none exceeds the worst, and the quantile is above (below) the median for levels above (below) one half. (Refuted: the initial wealth counts as a peak - over one step the drawdown is always 0; labels of the weights are respected.)", "quantifier": "every book, scenario set, horizon, number of paths and sequence of draws", "why_tests_cant": "all lengths and all draws", "anchors": [{"file": "pyvallocation/utils/performance.py", "symbols": ["drawdown_quantile"]}]}
{"id": "C44", "title": "Log and simple moments round-trip", "statement": "simple2log(log2simple(mu,cov)) = (mu,cov) and conversely on the admissible domain; compound/simple scenario conversions are mutually inverse (raising ValueError exactly on returns <= -1); log2simple yields the mean and covariance of exp(X)-1 for log-normal X and keeps symmetry and positive semi-definiteness; projections scale linearly with the horizon. (Refuted in part: simple2log can turn a genuine covariance into a non-PSD one or into NaN without an error.)", "quantifier": "every admissible moment pair", "why_tests_cant": "all reals", "anchors": [{"file": "pyvallocation/utils/projection.py", "symbols": ["log2simple", "simple2log", "convert_scenarios_compound_to_simple"]}]}
{"id": "C45", "title": "Bootstrapped projections only recombine historical scenarios", "statement": "Every projected scenario is the sum of `horizon` rows drawn from the input; hence its entries lie between horizon*min and horizon*max, and rows with zero probability are never used; each row is selected with its relative weight, the law of a projected scenario has mean h*mu and covariance h*Sigma, and simulate_paths ends at the projection. (Refuted in part: weights whose total is off by 1e-8..1e-5 are not normalised and raise; simulate_paths accepts negative weights.)", "quantifier": "every draw outcome", "why_tests_cant": "all random draws", "anchors": [{"file": "pyvallocation/utils/projection.py", "symbols": ["project_scenarios", "simulate_paths"]}]}
{"id": "C46", "title": "Repricing maps instruments to the right risk drivers", "statement": "compose_repricers applies each instrument's repricer to exactly its named columns and keeps the instrument order; unknown names raise KeyError and non-callables TypeError; column order does not matter; zero shock gives zero P&L for exp and full repricers and only the time decay for Taylor; from_invariants chains projection and repricing under the right labels. (Refuted in part: of duplicate column names only the last is used.)", "quantifier": "every column layout", "why_tests_cant": "all permutations of columns", "anchors": [{"file": "pyvallocation/utils/projection.py", "symbols": ["compose_repricers", "make_repricing_fn", "reprice_taylor", "reprice_exp"]}]}
{"id": "C47", "title": "Discrete allocation validates its inputs", "statement": "Construction accepts finite weights, prices, portfolio value and lot sizes exactly when every weighted label has a price, some weight is not negligible, the kept labels have positive prices and lots, the value is positive and the kept weights sum to a positive number; it then rescales weights to sum to one. (NaN prices, weights or values slip through: refuted.)", "quantifier": "every weight, price and lot table", "why_tests_cant": "all label sets and values incl. NaN", "anchors": [{"file": "pyvallocation/discrete_allocation.py", "symbols": ["DiscreteAllocationInput", "_to_series", "_lot_sizes_to_series"]}]}
{"id": "C48", "title": "Solver options are restored after stacking", "statement": "exposure_stacking(solver_options=...) leaves the process-wide cvxopt options exactly as they were, also after failures and nested uses, and inside the call the overrides take precedence. (Two threads stacking concurrently can leave one caller's overrides installed: refuted.)", "quantifier": "every sequence of nested uses; every interleaving of two threads", "why_tests_cant": "all histories and interleavings", "anchors": [{"file": "pyvallocation/ensembles.py", "symbols": ["_temporary_solver_options"]}]}
{"id": "C49", "title": "Blending never mixes assets or risk levels", "statement": "average_frontiers / exposure_stack_frontiers take exactly one column per frontier (the one asked for, counted from either end, or the first of least risk), require the same number of assets everywhere and identical asset labels wherever labels exist.", "quantifier": "every list of frontiers, panels and selections", "why_tests_cant": "all list lengths and label sets", "anchors": [{"file": "pyvallocation/ensembles.py", "symbols": ["_collect_samples", "_merge_asset_names", "average_frontiers"]}]}
{"id": "C50", "title": "Ensembles combine each specification's own portfolio by asset label", "statement": "assemble_portfolio_ensemble over frontiers uses every specification's own frontier and column; over selected portfolios the average at an asset is the weighted mean of the specifications' weights for that asset, whatever order they list assets in. (Equal names silently drop a frontier; different asset sets silently give NaN: refuted.)", "quantifier": "every list of specifications", "why_tests_cant": "all label orders and name clashes", "anchors": [{"file": "pyvallocation/ensembles.py", "symbols": ["assemble_portfolio_ensemble"]}]}
{"id": "C51", "title": "Default stacking fold count is usable", "statement": "The number of folds chosen by assemble_portfolio_ensemble lies between 1 and the number of portfolios, equals the requested one when possible and min(3, n) by default; with at least two portfolios the default call is accepted. (With one specification the default call always raises: refuted.)", "quantifier": "every requested fold count and number of portfolios", "why_tests_cant": "all integers", "anchors": [{"file": "pyvallocation/ensembles.py", "symbols": ["_determine_stack_folds", "assemble_portfolio_ensemble"]}]}
{"id": "C52", "title": "ensure_psd_matrix repairs any matrix minimally", "statement": "ensure_psd_matrix never raises on a non-empty square matrix; it returns the symmetric part plus k>=0 times the identity, symmetric and with no eigenvalue below -1e-8; k=0 when the symmetric part already meets that, and otherwise the least eigenvalue of the result is exactly 1e-8. (Strict positive semidefiniteness is refuted: eigenvalues in [-1e-8,0) are kept.)", "quantifier": "every square matrix of every size", "why_tests_cant": "all real matrices", "anchors": [{"file": "pyvallocation/utils/validation.py", "symbols": ["ensure_psd_matrix", "is_psd"]}]}
{"id": "C53", "title": "Covariance estimates follow the unit of returns", "statement": "Multiplying every return by k multiplies the sample, EWMA, OAS and identity-target Ledoit-Wolf covariances by k^2. (The constant-correlation Ledoit-Wolf estimate does not: refuted.)", "quantifier": "every data matrix and every non-zero k", "why_tests_cant": "all scales and dimensions", "anchors": [{"file": "pyvallocation/moments.py", "symbols": ["estimate_sample_moments", "covariance_ewma", "shrink_covariance_oas", "shrink_covariance_ledoit_wolf"]}]}
{"id": "C54", "title": "POET and Tyler covariances have the right scale", "statement": "factor_covariance_poet keeps the sample variances on the diagonal up to a common non-negative repair, moves each covariance by at most threshold times the two scales, and reproduces the sample covariance for a zero threshold; robust_covariance_tyler returns a PSD matrix. (Tyler's total variance is the sample's divided by the number of assets: 'same scale as the data' is refuted.)", "quantifier": "every data matrix, factor loadings, threshold, shrinkage, iteration count", "why_tests_cant": "all dimensions and iteration counts", "anchors": [{"file": "pyvallocation/moments.py", "symbols": ["factor_covariance_poet", "robust_covariance_tyler"]}]}
{"id": "C55", "title": "estimate_moments uses the scenario probabilities", "statement": "With sample estimators, estimate_moments(R, p) returns the p-expectation and p-variance of every portfolio, and p=None means equal probabilities. (OAS, EWMA, POET and Tyler covariances ignore p: refuted.)", "quantifier": "every data matrix and probability vector", "why_tests_cant": "all inputs", "anchors": [{"file": "pyvallocation/moments.py", "symbols": ["estimate_moments"]}]}
{"id": "C56", "title": "Cholesky jitter is bounded and only used when needed", "statement": "The Cholesky helper used by the robust, risk-parity and NIW code returns the factor of sym(M)+jI with 0<=j<=1e-7, adds nothing when sym(M) itself factorises, and raises only after the plain matrix and the six jitters 1e-12..1e-7 all failed.", "quantifier": "every matrix and every factorisation oracle that is exact when it succeeds", "why_tests_cant": "the jitter path depends on near-singular inputs that tests rarely hit", "anchors": [{"file": "pyvallocation/bayesian.py", "symbols": ["_cholesky_pd"]}]}
{"id": "C57", "title": "RobustOptimizer with proportional costs", "statement": "Proportional transaction costs are part of the robust programme. (Refuted: as soon as both initial weights and costs are given, every solve and every frontier call raises; lambda solves raise ValueError.)", "quantifier": "every mean, uncertainty, cost vector and parameter", "why_tests_cant": "needs all inputs: the claim is that no input works", "anchors": [{"file": "pyvallocation/optimization.py", "symbols": ["RobustOptimizer._solve_socp"]}]}
{"id": "C58", "title": "Relaxed risk parity target clipping", "statement": "A return target is used unchanged if it is more than tol=max(1e-8,1e-3|max|) below the largest return of a long-only portfolio satisfying the constraints, else it is clipped to max-tol; a minimum target wins; the result earns the clipped target. (Refuted in part: when the user's equalities are all homogeneous the return programme has no budget row and any target raises.)", "quantifier": "every mean, covariance, constraints, target and floor", "why_tests_cant": "must hold for each relation between target, floor and maximal return", "anchors": [{"file": "pyvallocation/optimization.py", "symbols": ["RelaxedRiskParity.solve", "RelaxedRiskParity._max_linear_return"]}]}
{"id": "C59", "title": "String selectors are repeatable", "statement": "A selector built from a string gives the same portfolio each time it is applied to the same frontier, whatever frontiers it was applied to before; the risk-based ones use the given risk label, else the primary risk, except that robust ('Estimation Risk') frontiers with a Volatility overlay are judged by volatility. (Refuted in part: 'min_risk' with a risk_label forgets the label after its first use.)", "quantifier": "every selector, every sequence of frontiers", "why_tests_cant": "depends on the whole history of calls to the closure", "anchors": [{"file": "pyvallocation/ensembles.py", "symbols": ["_build_selector", "make_portfolio_ensemble"]}]}
{"id": "C60", "title": "Tabular and discrete export pick the requested columns", "statement": "to_frame returns exactly the requested columns in order under the given labels (or the requested indices), negative indices counting from the end; IndexError iff an index is out of range, ValueError iff the number of labels is wrong; as_discrete_allocation uses the labelled requested column and rejects negative indices.", "quantifier": "every frontier, list of column indices and labels", "why_tests_cant": "must hold for all index lists", "anchors": [{"file": "pyvallocation/portfolioapi.py", "symbols": ["PortfolioFrontier.to_frame", "PortfolioFrontier._select_weights", "PortfolioFrontier.as_discrete_allocation"]}]}
{"id": "C61", "title": "Feasible mean-variance and mean-CVaR requests are answered", "statement": "With exact and complete solvers and constraints that bound every position, efficient_portfolio of the mean-variance and the mean-CVaR optimiser returns a portfolio exactly when some portfolio satisfies the constraints and the return target, and raises RuntimeError otherwise; efficient_frontier returns exactly when the constraint set is not empty. No assumption on the covariance, the impact costs or the number of scenarios.", "quantifier": "every number of assets and scenarios, constraint set, cost, target and frontier size", "why_tests_cant": "feasibility of every request needs an existence (compactness) argument, not examples", "anchors": [{"file": "pyvallocation/optimization.py", "symbols": ["MeanVariance.efficient_portfolio", "MeanVariance.efficient_frontier", "MeanCVaR.efficient_portfolio", "MeanCVaR.efficient_frontier"]}]}
{"id": "C62", "title": "Robust optimisation answers on every positive semidefinite scatter", "statement": "Every symmetric positive definite matrix has a Cholesky factor, so the jittered factorisation succeeds on every positive semidefinite matrix; without proportional costs the penalised robust problem then has an answer exactly when the bounded constraint set is not empty, and the capped one exactly when some feasible portfolio also respects the risk cap; RuntimeError otherwise.", "quantifier": "every positive semidefinite matrix, constraint set, penalty and cap", "why_tests_cant": "singular and near-singular matrices of every size must be handled", "anchors": [{"file": "pyvallocation/optimization.py", "symbols": ["RobustOptimizer.solve_lambda_variant", "RobustOptimizer.solve_gamma_variant"]}, {"file": "pyvallocation/bayesian.py", "symbols": ["_cholesky_pd"]}]}
{"id": "C63", "title": "Risk parity always has an answer", "statement": "For every positive semidefinite covariance, valid budgets and regulator, the relaxed risk parity solve without return target returns exactly when some long-only portfolio within the constraints has no negative marginal risk - in particular always when there are no user constraints; with a target it returns when such a portfolio meets the clipped target.", "quantifier": "every covariance, budget vector, regulator and constraint set", "why_tests_cant": "existence of an optimum over an unbounded cone programme", "anchors": [{"file": "pyvallocation/optimization.py", "symbols": ["RelaxedRiskParity.solve"]}]}
{"id": "C64", "title": "Every wrapper result satisfies the constraints in effect", "statement": "Each portfolio returned by any method of PortfolioWrapper (single portfolios and every frontier column) has one weight per asset and satisfies the constraints passed to the call, or those of the wrapper when none are passed. (Refuted in part: a wrapper built without any constraint silently behaves as long-only and fully invested.)", "quantifier": "every wrapper, method, argument, constraint set and cost", "why_tests_cant": "all paths of eight methods on all constraint sets", "anchors": [{"file": "pyvallocation/portfolioapi.py", "symbols": ["PortfolioWrapper", "PortfolioWrapper._resolve_constraints", "PortfolioWrapper._setup_constraints"]}]}
{"id": "C65", "title": "min_variance_at_return is optimal and honours its target", "statement": "The weights minimise variance plus market impact among admissible portfolios whose expected return reaches the target; the reported return and volatility are those of the weights in simple-return space; the reported return reaches the target for simple-return wrappers and for long-only log-return ones. (Refuted in part: with log returns and short positions the reported return can be below the target.)", "quantifier": "every wrapper, target, constraints and costs", "why_tests_cant": "optimality over a continuum for every input", "anchors": [{"file": "pyvallocation/portfolioapi.py", "symbols": ["PortfolioWrapper.min_variance_at_return"]}]}
{"id": "C66", "title": "min_cvar_at_return is optimal", "statement": "The weights minimise CVaR plus proportional turnover cost among admissible portfolios whose mean over the scenarios used reaches the target; the reported risk is the absolute CVaR of the weights over these scenarios (stored ones, or simulated ones with equal weights). (Refuted in part: the reported return uses the supplied mean, so it can be below the target.)", "quantifier": "every wrapper, scenario set, confidence level, target and cost", "why_tests_cant": "optimality over a continuum for every input", "anchors": [{"file": "pyvallocation/portfolioapi.py", "symbols": ["PortfolioWrapper.min_cvar_at_return", "PortfolioWrapper._scenario_inputs"]}]}
{"id": "C67", "title": "Wrapper variance and CVaR frontiers are efficient and correctly described", "statement": "Columns of variance_frontier and cvar_frontier are the least-cost admissible portfolios for equally spaced return levels from the minimum-risk portfolio to the maximal return; returns, risks, overlays, names and labels describe those columns; CVaR frontier returns are sorted, its raw CVaRs are those of the columns and the corrected risks never decrease.", "quantifier": "every wrapper, number of portfolios, constraints and costs", "why_tests_cant": "optimality of every column for every input", "anchors": [{"file": "pyvallocation/portfolioapi.py", "symbols": ["PortfolioWrapper.variance_frontier", "PortfolioWrapper.cvar_frontier", "PortfolioWrapper._cvar_overlay"]}]}
{"id": "C68", "title": "Robust frontier optimises each penalty and is sorted by risk", "statement": "robust_lambda_frontier returns one column per penalty of the grid, sorted by estimation risk, each maximising mean minus penalty times estimation risk over the admissible portfolios, with the penalty recorded; along the frontier expected return never decreases and a strictly riskier column never has a larger penalty; the grid is accepted exactly when non-empty and non-negative (or num>=1 and max>=0).", "quantifier": "every wrapper, penalty grid and constraint set", "why_tests_cant": "monotonicity of optima in the penalty needs a proof", "anchors": [{"file": "pyvallocation/portfolioapi.py", "symbols": ["PortfolioWrapper.robust_lambda_frontier"]}]}
{"id": "C69", "title": "Robust portfolio respects its risk cap", "statement": "solve_robust_gamma_portfolio returns the admissible portfolio maximising mean minus penalty times estimation risk among those whose squared estimation risk is at most the cap; the reported risk lies between the true value and the cap. (Refuted in part: with log returns the reported return is the log one.)", "quantifier": "every wrapper, parameters and constraint set", "why_tests_cant": "optimality over a continuum for every input", "anchors": [{"file": "pyvallocation/portfolioapi.py", "symbols": ["PortfolioWrapper.solve_robust_gamma_portfolio"]}]}
{"id": "C70", "title": "Relaxed risk parity portfolio reports what it solved", "statement": "relaxed_risk_parity_portfolio(_with_diagnostics): the anchor is the pure risk parity solution; the result solves the relaxed model for the effective target, which lies between the floor max(anchor return,0) and the larger of request and floor and is earned; no target is in force when a warning is given; the risk contributions are weight times marginal risk and their percentages add up to 100. (Refuted in part: an explicit target below the floor is raised to the floor.)", "quantifier": "every wrapper, regulator, target or multiplier, budgets and constraints", "why_tests_cant": "all combinations of target, floor and failures", "anchors": [{"file": "pyvallocation/portfolioapi.py", "symbols": ["PortfolioWrapper.relaxed_risk_parity_portfolio_with_diagnostics", "PortfolioWrapper._solve_relaxed_rp"]}]}
{"id": "C71", "title": "Relaxed risk parity frontier traces the multipliers", "statement": "The frontier has one column per multiplier (after the anchor if included), in order, with metadata; each column solves the relaxed model for its effective target, which lies between the floor and the requested multiple of it; the grid is accepted exactly when non-empty and non-negative (or num>=1 and max>=1).", "quantifier": "every wrapper, multiplier grid, budgets and constraints", "why_tests_cant": "all grids and failure patterns", "anchors": [{"file": "pyvallocation/portfolioapi.py", "symbols": ["PortfolioWrapper.relaxed_risk_parity_frontier"]}]}
{"id": "C72", "title": "Wrapper factories store the moments described", "statement": "from_moments stores the mean and the covariance plus a non-negative multiple of the identity (zero if it is already positive semidefinite), converted to lognormal simple moments for log returns; from_robust_posterior scales mean and covariance by the horizon and mean uncertainty by its square; from_scenarios stores the (exponentiated) scenarios with normalised weights and their moments. (Log from_moments also accepts a single mean for all assets.)", "quantifier": "every mean, covariance, scenario matrix, horizon and label set", "why_tests_cant": "all sizes and values", "anchors": [{"file": "pyvallocation/portfolioapi.py", "symbols": ["PortfolioWrapper.from_moments", "PortfolioWrapper.from_robust_posterior", "PortfolioWrapper.from_scenarios"]}]}
{"id": "C73", "title": "Transaction cost shapes are checked at construction", "statement": "The constructor raises ValueError exactly when a cost vector does not have one entry per asset, and stores the costs otherwise. (Refuted in part: costs passed to a call are not checked, and a single coefficient is accepted for several assets.)", "quantifier": "every wrapper and cost vectors", "why_tests_cant": "all lengths", "anchors": [{"file": "pyvallocation/portfolioapi.py", "symbols": ["PortfolioWrapper._apply_transaction_costs", "TransactionCosts"]}]}
{"id": "C74", "title": "Feasible wrapper requests are answered", "statement": "With exact complete solvers and bounded admissible sets every wrapper method returns a result exactly when the request can be met (target reachable, cap attainable, admissible set non-empty; for risk parity, some long-only admissible portfolio without negative marginal risk, whatever the target), and otherwise min_variance_at_return and min_cvar_at_return raise InfeasibleOptimizationError, the others RuntimeError.", "quantifier": "every wrapper, method, argument, constraint set and cost", "why_tests_cant": "existence of an optimum for every feasible input", "anchors": [{"file": "pyvallocation/portfolioapi.py", "symbols": ["PortfolioWrapper"]}]}
{"id": "C75", "title": "Bayesian posterior labels", "statement": "Posterior mean, scale and derived matrices of NIWPosterior carry the labels of the prior in the prior's order; a labelled prior mean and scale with different labels are rejected (refuted parts: labels of the sample moments are ignored, so a reordered sample silently changes the posterior; the columns of a prior DataFrame are not checked when the prior mean is unlabelled).", "quantifier": "all label lists, priors and samples", "why_tests_cant": "Tests use aligned labels; misalignment is only visible over all orderings.", "anchors": [{"file": "pyvallocation/bayesian.py", "symbols": ["NIWPosterior.__init__", "NIWPosterior.update", "NIWPosterior.get_mu_ce"]}]}
{"id": "C76", "title": "Credibility radii are worst cases", "statement": "get_mu_ce, get_sigma_ce and get_S_mu are the documented multiples of the posterior; cred_radius_mu is the factor g for which mu1'w - g sqrt(w'Sigma1 w) is exactly the worst expected return of w over the mean ellipsoid with scatter S_mu; cred_radius_sigma_factor is the factor c for which c w'Sigma1 w is exactly the largest variance of w over the covariance ellipsoid; both exist exactly for levels strictly between 0 and 1 (the mean radius also needs nu1 > 2) and grow with the level.", "quantifier": "all posteriors, portfolios, levels and chi-square quantile functions", "why_tests_cant": "The worst case is a supremum over a continuum of means or covariance matrices.", "anchors": [{"file": "pyvallocation/bayesian.py", "symbols": ["NIWPosterior.cred_radius_mu", "NIWPosterior.cred_radius_sigma_factor", "NIWPosterior.get_S_mu", "NIWPosterior.get_sigma_ce"]}]}
{"id": "C77", "title": "RobustBayesPosterior.from_niw agrees with the step-by-step route", "statement": "from_niw with whole-number counts succeeds exactly when constructing, updating and reading an NIWPosterior does (nu1 > 2), gives the same mean, covariance, S_mu and both radii at every level, and sigma1 recovers the posterior scale exactly.", "quantifier": "all priors, samples, counts and levels", "why_tests_cant": "Two independent implementations of the same formulas must agree for every input.", "anchors": [{"file": "pyvallocation/bayesian.py", "symbols": ["RobustBayesPosterior.from_niw", "RobustBayesPosterior.sigma1", "RobustBayesPosterior.cred_radius_mu", "RobustBayesPosterior.cred_radius_sigma_factor"]}]}
{"id": "C78", "title": "Mean uncertainty in horizon and simple-return units", "statement": "mean_uncertainty_cov_log scales S_mu with the squared horizon; mean_uncertainty_cov_simple is the delta-method image J S J' with J the derivative of exp(m)-1 at the horizon mean; both stay PSD and keep labels; with exact=True and a unit horizon J is one plus the lognormal expected simple return (refuted for horizons above 1: the covariance is multiplied by the squared horizon, unlike project_mean_covariance).", "quantifier": "all posteriors, horizons and portfolios", "why_tests_cant": "PSD-ness and the delta-method identity hold over all real matrices.", "anchors": [{"file": "pyvallocation/bayesian.py", "symbols": ["RobustBayesPosterior.mean_uncertainty_cov_log", "RobustBayesPosterior.mean_uncertainty_cov_simple"]}]}
{"id": "C79", "title": "Black-Litterman view confidence", "statement": "The view covariance is tau times the view's prior variance by default, (1-c)/c times that for Idzorek confidences (moved into [1e-6, 1-1e-6]; a missing dictionary key counts as 1), or the caller's vector or matrix; with a single view the viewed mean or difference moves exactly the fraction c of the way from prior to target (one half by default; tau c/(tau c + 1 - c) with idzorek_use_tau=False) (refuted: the class docstring's own example of confidences is ignored by the key lookup).", "quantifier": "all views, confidences, covariances and tau", "why_tests_cant": "The fraction is an identity over all real inputs.", "anchors": [{"file": "pyvallocation/views.py", "symbols": ["BlackLittermanProcessor._build_omega", "BlackLittermanProcessor._parse_conf"]}]}
{"id": "C80", "title": "Black-Litterman requests: accepted, rejected, labelled", "statement": "With a complete linear solver every request with a PSD covariance, positive tau and risk aversion, a prior mean of the right length, known distinct assets, single targets and a positive definite view covariance is answered; malformed requests raise ValueError or LinAlgError and nothing else; results carry the covariance's index; labels name their first position, unlabelled assets their number (refuted: several priors are accepted at once, tau is not validated, a view of an asset on itself is accepted with the wrong meaning, without views a prior mean of any length is returned, the documented covariance formula fails without views).", "quantifier": "all requests", "why_tests_cant": "Totality over all requests and solvers meeting the contract.", "anchors": [{"file": "pyvallocation/views.py", "symbols": ["BlackLittermanProcessor.__init__", "BlackLittermanProcessor._asset_index", "BlackLittermanProcessor._build_views"]}]}
{"id": "C81", "title": "Black-Litterman equilibrium prior", "statement": "The prior implied by market weights makes the normalised market portfolio the unique (for positive definite covariance) maximiser of mean-variance utility at the given risk aversion, and depends only on the proportions of the weights (refuted: the call leaves the caller's weights untouched - a float array is normalised in place).", "quantifier": "all weights, covariances and risk aversions", "why_tests_cant": "Optimality over all portfolios.", "anchors": [{"file": "pyvallocation/views.py", "symbols": ["BlackLittermanProcessor.__init__"]}]}
{"id": "C82", "title": "Entropy pooling answers exactly when views are attainable", "statement": "If some strictly positive distribution obeys the views then a unique closest distribution exists and is strictly positive, and a solver that finds stationary multipliers whenever they exist makes entropy_pooling return it (its probabilities above e^-700). Views obeyed by no distribution always raise. An unknown method, an empty prior or a non-positive prior weight raise ValueError; a solver failure raises RuntimeError.", "quantifier": "every prior, every set of equality and inequality rows, every solver meeting the contract", "why_tests_cant": "attainability is a statement about all distributions; no test can exhibit that none obeys the views", "anchors": [{"file": "pyvallocation/views.py", "symbols": ["entropy_pooling"]}]}
{"id": "C83", "title": "Entropy pooling does not depend on the solver", "statement": "Two successful calls with any supported methods, any solvers meeting the first-order conditions, and priors equal up to scale return the same probabilities. The gradient handed to the solver is the derivative of the objective handed to it, minimisers within the bounds meet the first-order conditions, and a solver that stops at gradient tolerance eps leaves each view within eps(1+|target|)/(1000-eps).", "quantifier": "every prior, row set, pair of solvers, tolerance below 1000 and multiplier vector away from the clipping limits", "why_tests_cant": "solver paths and stopping points are not enumerable", "anchors": [{"file": "pyvallocation/views.py", "symbols": ["entropy_pooling", "_entropy_pooling_dual_objective"]}]}
{"id": "C84", "title": "Order of flexible views", "statement": "View kinds are processed one after the other in the order mean, volatility, variance, skewness, correlation, quantile, CVaR (the moment kinds jointly unless sequential=True): cutting the order anywhere, one call equals a call with the first kinds followed by a call with the rest whose prior is the first posterior; with only one kind of moment view, sequential does not matter. (Refuted: in sequential mode every view holds at the end; mean views survive an added quantile view.)", "quantifier": "every view set, prior, cut point and solver meeting the contract", "why_tests_cant": "an equality between all calls and all their decompositions", "anchors": [{"file": "pyvallocation/views.py", "symbols": ["FlexibleViewsProcessor._compute_posterior_probabilities"]}]}
{"id": "C85", "title": "Quantile views of flexible views", "statement": "Without CVaR views, every quantile view P(R<=level) holds in the returned distribution, which is the closest one meeting them to the posterior of the moment views.", "quantifier": "every prior, set of views and solver meeting the contract", "why_tests_cant": "optimality over all distributions", "anchors": [{"file": "pyvallocation/views.py", "symbols": ["FlexibleViewsProcessor._compute_posterior_probabilities"]}]}
{"id": "C86", "title": "CVaR views of flexible views", "statement": "The last CVaR view holds in the returned distribution: the mean of the worst gamma of the outcomes of that asset is the target (gamma 5% unless given).", "quantifier": "every prior, set of views, sort and solver meeting the contract", "why_tests_cant": "the search stops at a data-dependent number of tail scenarios and iterations", "anchors": [{"file": "pyvallocation/views.py", "symbols": ["FlexibleViewsProcessor._solve_cvar_view"]}]}
{"id": "C87", "title": "Ranking views", "statement": "rank_mean adds exactly the views 'each name has at least the mean of the next' for consecutive pairs without a view of their own; with a ranking alone the posterior means are in that order; shorter than two names is refused. (Refuted: the caller's dictionary of mean views is left unchanged.)", "quantifier": "every ranking and dictionary of mean views", "why_tests_cant": "all rankings and dictionaries", "anchors": [{"file": "pyvallocation/views.py", "symbols": ["FlexibleViewsProcessor.__init__"]}]}
{"id": "C88", "title": "Forms and validation of flexible views", "statement": "Vectors of views are equality views on the assets in order (a wrong length raises), for means, volatilities, variances, skewness and CVaR alike; a successful call has only labels that resolve to a column, parsable specifications, ranges in order, positive volatilities, non-negative variances, correlations in [-1,1], probabilities strictly between 0 and 1, and positive tail probabilities. (Refuted: one asset can have views - a single column is always refused.)", "quantifier": "every request", "why_tests_cant": "all requests", "anchors": [{"file": "pyvallocation/views.py", "symbols": ["FlexibleViewsProcessor.__init__", "FlexibleViewsProcessor._parse_view"]}]}
{"id": "C89", "title": "Prior and posterior moments of flexible views", "statement": "The prior is the given scenarios with the given weights (scaled to one unless already close) or equal ones, or a sample of the requested size whose mean and covariance are the requested ones up to 1.1e-6 on the diagonal when the draws are standardised; with no views the posterior is the prior, with any view it is a strictly positive probability vector; the returned mean and covariance are the posterior ones: every portfolio's variance under the posterior is its quadratic form.", "quantifier": "every prior and view set", "why_tests_cant": "all dimensions and view sets", "anchors": [{"file": "pyvallocation/views.py", "symbols": ["FlexibleViewsProcessor.__init__", "FlexibleViewsProcessor.get_posterior"]}]}
{"id": "C90", "title": "Stress tests report the measures of every portfolio", "statement": "A successful stress_test lists, for every portfolio, the mean, volatility, VaR and CVaR (of the P&L net of its mean if demean is true) and the effective number of scenarios of the portfolio's P&L under the given probabilities divided by their total (uniform by default), then the same under the stressed probabilities and/or on the transformed scenarios; these measures are uniquely determined; the columns are named and ordered as documented, one value per portfolio.", "quantifier": "every set of scenarios, weights, probabilities, transform and level", "why_tests_cant": "the risk measures are characterised as quantiles and tail expectations over all inputs", "anchors": [{"file": "pyvallocation/stress.py", "symbols": ["stress_test"]}]}
{"id": "C91", "title": "Stress test requests: accepted and rejected", "statement": "stress_test succeeds exactly when the level is strictly between 0 and 1, demean is a boolean, the weights fit the scenario columns (same label sets, or the same number), the probabilities are non-negative with positive total and one per scenario, and the transform returns a finite matrix of the same shape; every failure is a ValueError, an error of the transform itself, or (mismatched labels of mixed types) a TypeError (refuted: a label mismatch always raises ValueError).", "quantifier": "every request", "why_tests_cant": "all requests", "anchors": [{"file": "pyvallocation/stress.py", "symbols": ["stress_test", "_align_weights"]}]}
{"id": "C92", "title": "Linear stress transforms", "statement": "linear_map scales the scenarios and then adds the shift; a positive scale a and a shift of portfolio value b turn the mean into a*mean+b, the volatility into a*sd, VaR and CVaR into a*risk-b (a*risk when demeaned), and leave the effective number of scenarios and the absence of a divergence column; a matrix B acts on the book like the nominal test of the book B^T w.", "quantifier": "every book, scenario set, scale, shift and matrix", "why_tests_cant": "identities over all reals and dimensions", "anchors": [{"file": "pyvallocation/stress.py", "symbols": ["linear_map", "stress_test"]}]}
{"id": "C93", "title": "Time-decay, kernel and entropy-pooling stresses", "statement": "exp_decay_stress reports the book under strictly positive probabilities halving every half-life back in time and succeeds exactly for positive half-lives and otherwise valid requests; kernel_focus_stress under positive probabilities ordered by distance from the target (default: the last focus value); entropy_pooling_stress of a pooled posterior reports the smallest relative entropy any distribution obeying the views has.", "quantifier": "every book, scenario set, half-life, focus series, bandwidth and view set", "why_tests_cant": "optimality over all distributions; all inputs", "anchors": [{"file": "pyvallocation/stress.py", "symbols": ["exp_decay_stress", "kernel_focus_stress", "entropy_pooling_stress"]}]}
{"id": "C94", "title": "Performance reports", "statement": "performance_report gives the mean, volatility, VaR, CVaR and effective scenarios of the single portfolio's P&L; it succeeds exactly when level, demean and probabilities are valid and every scenario column has a weight; its numbers are the nominal half of the stress test of the same book (refuted: every weight is used - labels that are not columns are dropped silently; mappings are accepted; different levels have different labels - 97.5% and 98% share one).", "quantifier": "every book, scenario set, probabilities and level", "why_tests_cant": "all inputs", "anchors": [{"file": "pyvallocation/utils/performance.py", "symbols": ["performance_report"]}]}
{"id": "C95", "title": "Scenario P&L", "statement": "scenario_pnl gives, per scenario and portfolio, the sum of column times weight with weights matched by label when both are labelled and by position otherwise; it succeeds exactly when both are labelled or the numbers agree (refuted: a missing label is an error - every P&L is NaN instead).", "quantifier": "every book and scenario set", "why_tests_cant": "all inputs", "anchors": [{"file": "pyvallocation/utils/performance.py", "symbols": ["scenario_pnl"]}]}
{"id": "C96", "title": "Horizon reports", "statement": "horizon_report has exactly one row per distinct requested horizon (labels are injective; a repeated horizon keeps its last computation); each row measures the book whose scenarios compound the bootstrap rows drawn for that horizon; a row exists exactly when the horizon, number of simulations, probabilities, level and weights are valid, and the report exactly when every row does; with random_state s the i-th row is the one a generator seeded s+i gives.", "quantifier": "every list of horizons, book, scenario set and sequence of draws", "why_tests_cant": "all lists and draws", "anchors": [{"file": "pyvallocation/utils/performance.py", "symbols": ["horizon_report"]}]}
{"id": "C97", "title": "Stresses of invariants", "statement": "stress_invariants without views reports the repriced uniform bootstrap of the drivers, weights matched by label; with views it adds the measures of a second bootstrap, with the next seed, drawing rows with the probabilities of the views' posterior (refuted: weights are then matched by label - they are taken in order).", "quantifier": "every set of invariants, repricers, views, weights and draws", "why_tests_cant": "all inputs and draws", "anchors": [{"file": "pyvallocation/stress.py", "symbols": ["stress_invariants"]}]}
{"id": "C98", "title": "Turning a price table into returns: which requests are served", "statement": "pandas_to_numpy_returns returns an array iff the argument is a DataFrame, the date column (if any) is the index or a single parseable column, the requested columns exist and are numeric (or, without a request, there is at least one numeric column and one row), the method is 'log' or 'simple' and the fill is one of the four names; otherwise it raises ValueError (TypeError only for a requested non-numeric column). The array never contains NaN, all its rows have the same width, and it has exactly T-1 rows unless the fill is 'drop', which can only remove rows.", "quantifier": "every frame (any columns, labels, dtypes, cells including NaN and infinities), every selection, date column, method and fill name", "why_tests_cant": "the combinations of malformed requests and of positions of missing cells are unbounded", "anchors": [{"file": "pyvallocation/utils/data_helpers.py", "symbols": ["pandas_to_numpy_returns"]}]}
{"id": "C99", "title": "Returns carry the price history exactly", "statement": "For a complete table of positive prices, pandas_to_numpy_returns gives p[t+1]/p[t]-1 ('simple', always above -1) or log(p[t+1]/p[t]) ('log') under every fill name; compounding them from the first price reproduces every later price, and exp(log return)-1 is the simple return. Columns come in the requested order whatever the frame's column order; without a request they are the numeric non-date columns in frame order. The simple returns are the scenarios PortfolioWrapper.from_prices stores for the same prices.", "quantifier": "every number of rows and columns, every positive price, every column permutation, all four fills", "why_tests_cant": "all sizes and real prices, all column orders", "anchors": [{"file": "pyvallocation/utils/data_helpers.py", "symbols": ["pandas_to_numpy_returns"]}, {"file": "pyvallocation/portfolioapi.py", "symbols": ["PortfolioWrapper.from_prices"]}]}
{"id": "C100", "title": "Missing prices are handled return by return", "statement": "With gaps, a period's return is known iff both its prices are; 'zero' replaces unknown returns by 0, 'ffill'/'bfill' repeat the latest/next known return of the same asset (0 when there is none), 'drop' keeps exactly the periods at which all returns are known, in order, with their exact values. (The fills do not preserve growth over a gap: after 100, missing, 200 every fill compounds to 100; a zero price gives infinite returns; a negative price silently becomes a return of 0.)", "quantifier": "every pattern of missing prices, every number of rows and columns, both methods, all four fills", "why_tests_cant": "the pattern of gaps is an arbitrary subset of an arbitrarily large table", "anchors": [{"file": "pyvallocation/utils/data_helpers.py", "symbols": ["pandas_to_numpy_returns"]}]}
{"id": "C101", "title": "Weights become a labelled series", "statement": "numpy_weights_to_pandas_series returns a Series iff the weights are a one-dimensional array and the names a list of as many strings; the Series has exactly those labels and values, position by position. Anything else raises ValueError.", "quantifier": "every array shape, every list of names", "why_tests_cant": "all lengths, shapes and label lists", "anchors": [{"file": "pyvallocation/utils/data_helpers.py", "symbols": ["numpy_weights_to_pandas_series"]}]}
{"id": "C102", "title": "Selector names of portfolio specs", "statement": "make_portfolio_spec with a named selector succeeds iff the name, in any case, is one of the documented aliases and the option its family cannot do without is given (max_risk, target_risk, percentile, a non-None index); otherwise it raises ValueError at once. The selector then picks, from any frontier, the column its family stands for (best Sharpe ratio at the given risk-free rate, least risk, greatest return, greatest return below the risk cap, nearest risk, nearest percentile, the indexed column), with the frontier's asset labels; ties go to the first. (Refuted: a misspelt selector option is rejected - it is ignored.)", "quantifier": "every selector name, option mapping and frontier", "why_tests_cant": "all strings, option mappings and frontiers", "anchors": [{"file": "pyvallocation/ensembles.py", "symbols": ["make_portfolio_spec", "_build_selector"]}]}
{"id": "C103", "title": "Optimiser names of portfolio specs", "statement": "A spec's frontier is the one the named optimiser computes (mean_variance/mv, mean-cvar/cvar, rrp/relaxed_risk_parity, robust, in any case), called with the options given and the documented defaults for the others (10 portfolios, 95% confidence level i.e. alpha 0.05, convexity enforced, max_lambda 2, max_multiplier 1.6, lambda_reg 0.2, the zero-target portfolio included); an unknown name raises ValueError and an option foreign to the optimiser raises TypeError whatever else is given. (Refuted: an unknown optimiser is rejected when the spec is built - only when its frontier is computed.)", "quantifier": "every name and every combination of options", "why_tests_cant": "all strings and option combinations", "anchors": [{"file": "pyvallocation/ensembles.py", "symbols": ["make_portfolio_spec", "_resolve_optimiser"]}]}
{"id": "C104", "title": "The distribution behind a spec", "statement": "A distribution factory takes precedence over a distribution, which takes precedence over returns; with none of them ValueError is raised. With use_scenarios the distribution exists iff the prepared table is finite and non-empty and the probabilities are usable; its scenarios are the rows and each row's probability is its normalised weight, found by row label. Otherwise mean and covariance are the estimates after the projection, the covariance symmetrised and given a 1e-10 ridge (plus a shift only when its least eigenvalue is below -1e-8), so that it is at least 1e-10 positive definite whenever the projected estimate is positive semidefinite. The order of a labelled probability Series never matters. (Refuted: usable probabilities are always accepted without use_scenarios - a table with as many rows as assets is rejected; the covariance is always positive semidefinite - not after a transform that returns a slightly indefinite one.)", "quantifier": "every table, labels, probabilities, estimator and projection", "why_tests_cant": "all sizes, labels and values", "anchors": [{"file": "pyvallocation/ensembles.py", "symbols": ["_build_distribution", "make_portfolio_spec"]}]}
{"id": "C105", "title": "Projection options of a spec", "statement": "The projection of a spec's moments scales by annualization_factor first, converts log to simple moments second (log-normal formulas) and applies the caller's transform last; unknown keys raise ValueError. (Refuted: log_to_simple and its synonym to_simple may be given together - that raises.)", "quantifier": "every mean, covariance, factor, flag combination and transform", "why_tests_cant": "all real moments and option combinations", "anchors": [{"file": "pyvallocation/ensembles.py", "symbols": ["_apply_projection"]}]}
{"id": "C106", "title": "A spec's portfolios satisfy its constraints", "statement": "Every portfolio on the frontier of a spec built with a named optimiser, and the portfolio its named selector returns, carries the distribution's asset labels and satisfies the constraints given in optimiser_kwargs (long-only and fully invested if none). PortfolioWrapper.make_ensemble_spec depends on the wrapper's distribution only. (Refuted: the wrapper's own constraints apply to the specs it makes - they are dropped.)", "quantifier": "every distribution, constraint set, optimiser, selector and option", "why_tests_cant": "all inputs and solver outcomes", "anchors": [{"file": "pyvallocation/ensembles.py", "symbols": ["make_portfolio_spec", "EnsembleSpec"]}, {"file": "pyvallocation/portfolioapi.py", "symbols": ["PortfolioWrapper.make_ensemble_spec"]}]}
{"id": "C107", "title": "Ensembles of specs satisfy the common constraints", "statement": "When all specs of an ensemble were given the same constraints and the same assets, every frontier, every selection and every average or stacked blend in the result satisfies these constraints, in both combination modes, for any non-negative ensemble weights. Minimum-variance specs with the default constraints on distributions with moments always yield an average when the solvers find an optimum whenever there is one.", "quantifier": "every list of specs, constraint set, mode, fold count and weights", "why_tests_cant": "all lists of specs and solver outcomes", "anchors": [{"file": "pyvallocation/ensembles.py", "symbols": ["assemble_portfolio_ensemble"]}, {"file": "pyvallocation/portfolioapi.py", "symbols": ["PortfolioWrapper.assemble_ensembles"]}]}
{"id": "C108", "title": "Which ensembles are computed", "statement": "None, 'none' and blank strings (also a list of blanks) ask for no ensemble; any other name must be 'average' or 'stack' up to case and surrounding white space, and the result then contains exactly the requested ensembles, one selection per spec in order and one frontier per distinct spec name. The mode must be 'selected' or 'frontier' in any case, and there must be a spec. get/average/stacked return the stored blends or the default. (Refuted: 'none' inside a list is ignored - it raises.)", "quantifier": "every ensemble argument, mode string and list of specs", "why_tests_cant": "all strings and lists", "anchors": [{"file": "pyvallocation/ensembles.py", "symbols": ["_normalise_ensemble_argument", "assemble_portfolio_ensemble", "EnsembleResult"]}]}
{"id": "C109", "title": "Frontier helpers for blending", "statement": "stack_portfolios of frontiers and weight tables whose columns satisfy a set of constraints satisfies them and carries the labels of the labelled ones, or none if there are none; risk_percentile_selections gives for each frontier the column its index_at_risk_percentile names; available_risk_measures lists exactly the labels the risk-based methods accept; to_samples exports the same columns and labels as a frame and as raw data, and raises in the same cases.", "quantifier": "every list of entries, selections and constraints; every frontier and column list", "why_tests_cant": "all sizes and values", "anchors": [{"file": "pyvallocation/ensembles.py", "symbols": ["stack_portfolios", "risk_percentile_selections"]}, {"file": "pyvallocation/portfolioapi.py", "symbols": ["PortfolioFrontier.to_samples", "PortfolioFrontier.available_risk_measures"]}]}
{"id": "C110", "title": "Graphical lasso covariance and precision", "statement": "A successful sparse_precision_glasso call (numeric or automatic alpha, centred or not) returns a symmetric positive definite covariance and a symmetric positive definite precision that are exact inverses of each other.", "quantifier": "every return matrix, penalty and routine outcome", "why_tests_cant": "holds after any number of ADMM iterations on any data", "anchors": [{"file": "pyvallocation/moments.py", "symbols": ["sparse_precision_glasso", "_graphical_lasso_admm"]}]}
{"id": "C111", "title": "Graphical lasso stays close to the sample covariance", "statement": "With penalty alpha and N assets the returned covariance differs from the sample second moment by at most alpha plus 1e-4*(sqrt N + alpha*N) off the diagonal and by at most 1e-4*(sqrt N + alpha*N) on it. With the default assume_centered=True the diagonal therefore estimates the mean square (variance plus squared mean); with assume_centered=False adding a constant to an asset's returns changes nothing.", "quantifier": "every return matrix and positive penalty", "why_tests_cant": "a bound for all data and iteration counts", "anchors": [{"file": "pyvallocation/moments.py", "symbols": ["sparse_precision_glasso", "_graphical_lasso_admm"]}]}
{"id": "C112", "title": "Graphical lasso iterations approach the solution", "statement": "Every iteration brings the pair (sparse copy, scaled dual) closer to every exact graphical lasso solution; an iteration that does not move is at a solution; with a positive alpha and at least two rows the call can only fail with RuntimeError (no convergence within 200 iterations), and not even that when the start (S + alpha I)^-1 and S are within squared distance 1.99e-6*N of a solution's precision and covariance. Other bad arguments raise ValueError.", "quantifier": "every return matrix, penalty, iterate and solution", "why_tests_cant": "a Lyapunov argument over all iterates", "anchors": [{"file": "pyvallocation/moments.py", "symbols": ["_graphical_lasso_admm", "_soft_threshold", "sparse_precision_glasso"]}]}
{"id": "C113", "title": "Small graphical lasso penalties", "statement": "When alpha*(N + sqrt N) <= 1e-4*sqrt N the loop stops after its first iteration for every data set, and the precision returned is within alpha*sqrt N, entry by entry, of the ridge inverse (S + alpha I)^-1. (Refuted: that the precision is sparse - on a two-asset example the exact graphical lasso has a zero where the call returns less than -1000.)", "quantifier": "every return matrix and small penalty", "why_tests_cant": "for all data in the regime of daily returns", "anchors": [{"file": "pyvallocation/moments.py", "symbols": ["_graphical_lasso_admm", "sparse_precision_glasso"]}]}
{"id": "C114", "title": "Automatic graphical lasso penalty", "statement": "alpha='auto' tries amax, amax/sqrt 10, ..., amax/100 with amax the largest absolute off-diagonal sample moment (at least 1e-6); every row is held out in exactly one of min(5, T) folds and no fold is empty; the result equals the call with the chosen penalty, whose mean held-out score is within 1e-8 of the best and strictly above that of every larger penalty tried.", "quantifier": "every return matrix and determinant routine", "why_tests_cant": "all data sizes and score sequences", "anchors": [{"file": "pyvallocation/moments.py", "symbols": ["sparse_precision_glasso"]}]}
{"id": "C115", "title": "POET factors are principal components", "statement": "factor_covariance_poet(..., return_decomp=True) returns as factor scores the projections of the (standardised) centred returns on their first k principal directions: unit vectors, each maximising the sample variance among directions orthogonal to the previous ones, with centred, uncorrelated scores; each loading is the asset's scale times the direction times the score's deviation, so loading times deviation is the asset-score covariance.", "quantifier": "every return matrix with two or more rows, factor count, threshold and standardisation flag", "why_tests_cant": "an optimality statement over all directions and data", "anchors": [{"file": "pyvallocation/moments.py", "symbols": ["factor_covariance_poet"]}]}
{"id": "C116", "title": "POET is low rank plus sparse", "statement": "Sample covariance minus loadings times their transpose is positive semidefinite; the estimate has the sample variances on its diagonal plus a common non-negative repair c and, off it, the factor covariance plus the soft-thresholded standardised remainder (with the caller's threshold when one is given); c is zero when every off-diagonal remainder is below the threshold; with k = N the result is the sample covariance.", "quantifier": "every return matrix, factor count and threshold", "why_tests_cant": "entrywise identity for all data", "anchors": [{"file": "pyvallocation/moments.py", "symbols": ["factor_covariance_poet"]}]}
{"id": "C117", "title": "POET factor count", "statement": "For two or more rows and assets the call fails exactly when k <= 0 or the threshold is negative, always with ValueError; an integer k is clipped to the number of assets and a string k gives between 1 and max(1, N-2) factors. (Refuted: that 'auto' finds the number of factors - on any sample made of K equally strong factors plus noise of one variance with N >= 4 it returns 2 for K = 1 and K - 1 otherwise.)", "quantifier": "every return matrix, factor count and threshold; every K-factor sample", "why_tests_cant": "spectral statement for all sizes", "anchors": [{"file": "pyvallocation/moments.py", "symbols": ["factor_covariance_poet"]}]}
{"id": "C118", "title": "Estimator names", "statement": "estimate_moments accepts exactly the documented spellings of each estimator, in any letter case: two spellings of one estimator give the same answer for all other arguments, and an undocumented mean or covariance name never yields a result (ValueError when the other name is valid).", "quantifier": "every pair of names, data set, probability vector and keyword arguments", "why_tests_cant": "all strings and all arguments", "anchors": [{"file": "pyvallocation/moments.py", "symbols": ["estimate_moments"]}]}
{"id": "C119", "title": "Every estimated covariance is usable", "statement": "With two or more assets, whatever estimators and keyword arguments are chosen, a covariance returned by estimate_moments is square, symmetric and positive semidefinite up to 1e-8 (EWMA with span >= 1; Tyler with its default repair).", "quantifier": "every data set, probability vector, estimator pair and keyword arguments", "why_tests_cant": "spectral statement over all estimators and sizes", "anchors": [{"file": "pyvallocation/moments.py", "symbols": ["estimate_moments", "ensure_psd_matrix"]}]}
{"id": "C120", "title": "Mean and covariance choices do not interact", "statement": "The mean estimate_moments returns does not depend on the covariance choice nor the covariance on the mean choice; omitting p is the same as passing 1/T for every scenario, for every estimator. (Refuted: that p is always used - with a robust mean and any covariance estimator other than sample or Ledoit-Wolf the whole answer ignores it.)", "quantifier": "every data set and pair of estimator choices", "why_tests_cant": "quantifies over all pairs of choices", "anchors": [{"file": "pyvallocation/moments.py", "symbols": ["estimate_moments"]}]}
{"id": "C121", "title": "Moment labels", "statement": "When the returns are a DataFrame, every successful estimate_moments answer, for every estimator, is labelled with exactly its columns. (Refuted: that one-column DataFrames work - without p they are refused with ValueError for every estimator, while with p they are accepted.)", "quantifier": "every labelled data set, estimator pair and keyword arguments", "why_tests_cant": "all estimators and label lists", "anchors": [{"file": "pyvallocation/moments.py", "symbols": ["estimate_moments", "_labels", "_wrap"]}]}
{"id": "C122", "title": "Means stay within the observed range", "statement": "The sample, Huber and median-of-means estimates of each asset's mean from estimate_moments lie between that asset's smallest and largest observed return, for every probability vector and keyword arguments.", "quantifier": "every data set, probability vector, tolerance, iteration limit, block count and random permutation", "why_tests_cant": "all data and all permutations", "anchors": [{"file": "pyvallocation/moments.py", "symbols": ["estimate_moments", "robust_mean_huber", "robust_mean_median_of_means"]}]}
{"id": "C123", "title": "Moments under shifts of the returns", "statement": "Adding a constant to each asset's returns moves the sample and median-of-means means by exactly these constants and leaves the covariance unchanged for sample, Ledoit-Wolf, POET and Tyler, and for OAS and graphical lasso with assume_centered=False. (Refuted for EWMA and default OAS: a riskless asset with a constant non-zero return gets positive variance.)", "quantifier": "every data set, shift vector, probability vector and keyword arguments", "why_tests_cant": "all data and shifts", "anchors": [{"file": "pyvallocation/moments.py", "symbols": ["estimate_moments"]}]}
{"id": "C124", "title": "NIW posterior moments functions", "statement": "posterior_moments_niw returns the count-weighted mean and the classical-equivalent covariance of the conjugate update; posterior_moments_niw_with_uncertainty and RobustBayesPosterior.from_niw agree with it whenever they succeed, which is exactly when the posterior degrees of freedom exceed 2; only the integer parts of the counts matter, and a prior strength or sample size below one is refused.", "quantifier": "every prior, sample and count", "why_tests_cant": "real-valued identities for all inputs", "anchors": [{"file": "pyvallocation/moments.py", "symbols": ["posterior_moments_niw", "posterior_moments_niw_with_uncertainty"]}]}
{"id": "C125", "title": "VaR in floating point", "statement": "portfolio_var, with every operation rounded to binary64 (and stored scenarios within eps of the exact ones), returns for each portfolio minus a value within eps of a quantile of the exact P&L distribution at a level within (2T+6)*2^-53 of 1 - confidence. (Refuted: that the default 95% level picks the 5% quantile - with 20 equally likely scenarios the rounded level is passed only by the second-worst one, so the worst scenario is skipped whatever the data.)", "quantifier": "every scenario set with T*2^-53 <= 1/8, probability vector, confidence level and sorting routine", "why_tests_cant": "rounding of every operation for all sizes and data", "anchors": [{"file": "pyvallocation/utils/functions.py", "symbols": ["portfolio_var"]}]}
{"id": "C126", "title": "CVaR in floating point", "statement": "portfolio_cvar computed in binary64 differs from the exact CVaR of the exact P&L by at most eps + ((12T+60)*2^-53*M + (4T+8)*2^-1075)/alpha, where M bounds the absolute P&L, alpha = 1 - confidence and eps is the error of the stored scenarios, for any order in which the sums are accumulated.", "quantifier": "every scenario set, probability vector, confidence level, summation order and sorting routine", "why_tests_cant": "rounding of every operation for all sizes, data and summation orders", "anchors": [{"file": "pyvallocation/utils/functions.py", "symbols": ["portfolio_cvar"]}]}
{"id": "C127", "title": "Scenario P&L in floating point", "statement": "A portfolio's computed scenario P&L differs from the exact product of scenario and weights by at most the classical inner-product bound gamma_N * sum |r_i w_i| plus the underflow term, for any order of summation.", "quantifier": "every scenario row, weight vector and summation order", "why_tests_cant": "rounding for all sizes and summation orders", "anchors": [{"file": "pyvallocation/utils/functions.py", "symbols": ["portfolio_var", "portfolio_cvar"]}]}
{"id": "C128", "title": "Reported leftover cash in floating point", "statement": "The leftover cash of a discrete allocation is non-negative and differs from budget minus exact cost of the reported shares by at most 1e-8 plus a rounding term proportional to 2^-53; so the exact cost never exceeds the budget by more than that.", "quantifier": "every share vector, prices, budget and summation order", "why_tests_cant": "rounding for all sizes", "anchors": [{"file": "pyvallocation/discrete_allocation.py", "symbols": ["_build_result"]}]}
{"id": "C129", "title": "Greedy allocation terminates in floating point", "statement": "With binary64 arithmetic the greedy allocation always returns a result or raises: the loop cannot run forever on any prices, weights, lot sizes, budget, iteration limit or fallback mode.", "quantifier": "every input of the greedy allocator", "why_tests_cant": "termination for all inputs under rounding", "anchors": [{"file": "pyvallocation/discrete_allocation.py", "symbols": ["_allocate_greedy"]}]}
{"id": "C130", "title": "Greedy allocation does not overspend in floating point", "statement": "With normalised weights and budget V >= 1 satisfying (8n + 2*iterations + 24)*2^-53*V <= 9e-9, the greedy allocation in binary64 returns a result and never raises its overspend error. (Refuted for larger budgets: a budget of 98,718,244.88 on one asset at 753.08 raises RuntimeError in every fallback mode although 131,085 shares are affordable.)", "quantifier": "every portfolio within the budget bound; every fallback mode", "why_tests_cant": "rounding over all portfolios and iteration counts", "anchors": [{"file": "pyvallocation/discrete_allocation.py", "symbols": ["_allocate_greedy", "_build_result"]}]}
{"id": "C131", "title": "Normalised probabilities in floating point", "statement": "normalize_probability_vector in binary64 returns as many non-negative numbers as it was given, summing to one within 1.004e-5, and normalising the result again changes nothing; an input within 0.998e-5 of one is returned unchanged, one further than 1.004e-5 away has every entry rescaled to its exact share within relative (3n+4)*2^-53, for any order of summation.", "quantifier": "every float vector of up to about 90 million entries, flag and summation order", "why_tests_cant": "rounding for all sizes, values and summation orders", "anchors": [{"file": "pyvallocation/probabilities.py", "symbols": ["normalize_probability_vector"]}]}
{"id": "C132", "title": "Strictly positive normalisation in floating point", "statement": "With strictly_positive=True the returned probabilities are positive, and pass the same check again, whenever no entry is below 2^-1073 times the total. (Refuted in general: [2^-1074, 4] is accepted and returned as [0, 1], which the same call then rejects.)", "quantifier": "every float vector and summation order", "why_tests_cant": "underflow over all float vectors", "anchors": [{"file": "pyvallocation/probabilities.py", "symbols": ["normalize_probability_vector"]}]}
{"id": "C133", "title": "Generated probabilities pass later checks in floating point", "statement": "Uniform, exponentially decaying and Gaussian-kernel probabilities, and the ones AssetsDistribution stores, sum to one within (3n+4)*2^-53 in binary64, so normalize_probability_vector and the CVaR methods use them unchanged, whatever the order of summation there.", "quantifier": "every length, half-life, kernel data, bandwidth and probability input; every exponential routine that is monotone with exp(0)=1", "why_tests_cant": "rounding for all sizes and summation orders", "anchors": [{"file": "pyvallocation/probabilities.py", "symbols": ["generate_uniform_probabilities", "generate_exp_decay_probabilities", "generate_gaussian_kernel_probabilities"]}, {"file": "pyvallocation/portfolioapi.py", "symbols": ["AssetsDistribution", "PortfolioWrapper"]}]}
{"id": "C134", "title": "Exponential decay in floating point", "statement": "Decayed probabilities never favour an older observation over a newer one in binary64. (Refuted: that they are positive - when the sample spans about 1078 half-lives, e.g. half-life 5 and 5400 daily returns, the oldest probability is exactly zero and entropy pooling refuses the vector as a prior with ValueError.)", "quantifier": "every length and half-life; every monotone exponential that underflows below -746", "why_tests_cant": "rounding and underflow for all sizes", "anchors": [{"file": "pyvallocation/probabilities.py", "symbols": ["generate_exp_decay_probabilities", "normalize_probability_vector"]}, {"file": "pyvallocation/views.py", "symbols": ["entropy_pooling"]}]}
{"id": "C135", "title": "Herfindahl scenario count in floating point", "statement": "compute_effective_number_scenarios_hhi computed in binary64 differs from 1/sum(p^2) by at most (3n+8)*2^-53 in relative terms.", "quantifier": "every probability vector of floats and summation order", "why_tests_cant": "rounding for all sizes and summation orders", "anchors": [{"file": "pyvallocation/probabilities.py", "symbols": ["compute_effective_number_scenarios_hhi"]}]}
{"id": "C136", "title": "Portfolio variance in floating point", "statement": "portfolio_variance in binary64 differs from the exact w'Cw by at most ((1+2^-53)^(2n) - 1) * sum |w_i||C_ij||w_j| plus an underflow term, for any order of evaluation with or without fused multiply-add.", "quantifier": "every weight vector, covariance matrix and evaluation order", "why_tests_cant": "rounding for all sizes and evaluation orders", "anchors": [{"file": "pyvallocation/utils/functions.py", "symbols": ["portfolio_variance"]}]}
{"id": "C137", "title": "Portfolio volatility in floating point", "statement": "When the exact variance exceeds its rounding error, and always for long-only portfolios of non-negatively correlated assets, portfolio_volatility is a number, within the stated error of the exact volatility. (Refuted: that a positive semidefinite covariance suffices - for an asset and its fivefold leveraged version, covariance [[1,5],[5,25]], held 1.45 against -0.29, the computed variance is negative and the volatility NaN in every evaluation order.)", "quantifier": "every weight vector, covariance matrix and evaluation order", "why_tests_cant": "rounding for all sizes and evaluation orders", "anchors": [{"file": "pyvallocation/utils/functions.py", "symbols": ["portfolio_volatility"]}, {"file": "pyvallocation/portfolioapi.py", "symbols": ["PortfolioWrapper"]}]}
{"id": "C138", "title": "A frontier plot shows every supplied frontier, and nothing else", "statement": "When plot_frontiers succeeds it draws, for every frontier supplied (a single frontier, a sequence or a mapping) and in that order, exactly one line: the frontier's risks in the displayed measure against its returns, named by the supplied label (mapping key or entry of labels) if non-empty, else the displayed measure, else the frontier's own. Nodes, if shown, are the same points; for each overlay measure there is one dashed line for every frontier that carries it and none for the others; the x label is the requested measure, else the measure common to all frontiers, else 'Risk'.", "quantifier": "all frontiers of any size, all ways of supplying them, all labels, overlay lists and risk labels", "why_tests_cant": "tests check that a figure is produced, not what every combination of labels, measures and overlays draws", "anchors": [{"file": "pyvallocation/pyvallocation/plotting.py", "symbols": ["plot_frontiers", "_normalize_frontiers"]}]}
{"id": "C139", "title": "Highlighted points are the portfolios the selectors return", "statement": "For every frontier and highlight plot_frontiers marks one point and records it: the first portfolio of least displayed risk (min_risk), of greatest return (max_return) or of greatest (return - rf)/displayed risk among portfolios of non-zero risk (tangency); the marker sits at that portfolio's displayed risk and return and the record carries its weights, index and metadata. min_risk is frontier.min_risk of the displayed measure, max_return is frontier.max_return up to the risk shown, tangency is frontier.tangency when the displayed risk is the primary one (with another displayed measure it can be a different portfolio: refuted). The legend text of each marker is the name of its frontier and the kind of its highlight, followed only by metadata the caller asked for. A tangency highlight is omitted only if all displayed risks are below 1e-8.", "quantifier": "all frontiers, highlights, risk labels and risk-free rates", "why_tests_cant": "agreement of two code paths over all frontiers including ties and zero risks", "anchors": [{"file": "pyvallocation/pyvallocation/plotting.py", "symbols": ["_resolve_highlight", "plot_frontiers"]}, {"file": "pyvallocation/pyvallocation/portfolioapi.py", "symbols": ["PortfolioFrontier.min_risk", "PortfolioFrontier.max_return", "PortfolioFrontier.tangency"]}]}
{"id": "C140", "title": "Which frontier plots are accepted", "statement": "plot_frontiers succeeds if and only if the frontiers are supplied properly (frontiers only; with labels, exactly one per frontier), every frontier carries the displayed measure, and every highlight is min_risk, max_return, or tangency with a risk-free rate. Something that is not a frontier raises TypeError, a wrong number of labels or a wrong highlight ValueError, an unknown measure KeyError.", "quantifier": "all arguments", "why_tests_cant": "an equivalence over all inputs", "anchors": [{"file": "pyvallocation/pyvallocation/plotting.py", "symbols": ["plot_frontiers", "_normalize_frontiers", "_resolve_highlight"]}]}
{"id": "C141", "title": "Grid panels partition the frontiers by group", "statement": "plot_frontiers_grid draws one panel per distinct group (the frontier's measure, or the caller's key), titled with it, in order of first appearance; each panel has one line per distinct name among its frontiers, so if names are distinct within each group every frontier is drawn exactly once, in its group's panel; the axes form full rows of the requested number of columns with fewer blank axes than columns; legends follow the policy. (Refuted: of unlabelled frontiers of the same measure only the last is drawn; the documented legend policy 'all' always raises.)", "quantifier": "all collections of frontiers, labels, grouping functions and column counts", "why_tests_cant": "ordered-dictionary behaviour over all histories of insertions, rounding up of rows for every count", "anchors": [{"file": "pyvallocation/pyvallocation/plotting.py", "symbols": ["plot_frontiers_grid"]}]}
{"id": "C142", "title": "Weight bars are the largest weights in order", "statement": "plot_weights of a Series with top_n draws exactly the top_n largest weights (all if absent or larger; all but |n| for a negative n), in increasing order for horizontal and decreasing order for vertical bars, and no hidden weight exceeds a shown one, whatever (possibly unstable) sort pandas uses. (Refuted: top_n is ignored for a DataFrame; vertical bars with the default percentage axes carry the percentage formatter on the asset axis.)", "quantifier": "all weight vectors, all top_n, every sorting algorithm", "why_tests_cant": "ties and sort stability range over all sorts", "anchors": [{"file": "pyvallocation/pyvallocation/plotting.py", "symbols": ["plot_weights"]}]}
{"id": "C143", "title": "Parameter plots pair every portfolio with its own parameter", "statement": "plot_robust_path draws portfolio i at its displayed risk and return, coloured by the number its metadata holds, or by evenly spaced values from 0 to 1 if some portfolio has no finite number; plot_param_impact draws exactly the pairs (parameter, return) and (parameter, displayed risk) of all portfolios in increasing order of the parameter, and succeeds iff all portfolios have a number and the measure is known; plot_robust_surface draws exactly the triples (parameter, displayed risk, return). A parameter that is a string for some portfolio makes all three raise. (Refuted: plot_param_impact's ax argument always raises.)", "quantifier": "all frontiers with metadata, all parameters and risk labels", "why_tests_cant": "the pairing must survive sorting for every frontier", "anchors": [{"file": "pyvallocation/pyvallocation/plotting.py", "symbols": ["plot_robust_path", "plot_param_impact", "plot_robust_surface"]}]}
{"id": "C144", "title": "A frontier report shows one portfolio consistently", "statement": "plot_frontier_report without explicit weights draws the frontier's curve, the bars of all weights of the portfolio that the frontier's selector returns for the selection key, in increasing order, and exactly one marked point, at that portfolio's return and its risk in the displayed measure. It succeeds iff the key is not 'tangency', the measure is known and the selector succeeds. (Refuted: selection='tangency' always raises, because the rate is removed before the highlight asks for it; under maximum_return, max_sharpe or sharpe with another displayed measure the dot lies at the primary risk, off the curve.)", "quantifier": "all frontiers, selection keys and arguments, risk labels", "why_tests_cant": "agreement between the dot, the curve and the bars for all frontiers", "anchors": [{"file": "pyvallocation/pyvallocation/plotting.py", "symbols": ["plot_frontier_report"]}]}
{"id": "C145", "title": "The 3-D assumptions view looks along the directions of greatest variance", "statement": "With three or more assets plot_assumptions_3d projects onto orthonormal eigenvectors of the covariance with the three largest eigenvalues, largest first, so that the plotted covariance is diagonal with those eigenvalues; with fewer assets the axes are the assets themselves, padded with zeros. For any components, mean, covariance and every scenario row are projected consistently: along any displayed direction the plotted mean, variance and scenario value are those of the corresponding combination of assets.", "quantifier": "all assumptions with any number of assets and scenarios, every exact eigen-decomposition and sort", "why_tests_cant": "holds for all directions and all covariances, whatever basis the eigensolver returns", "anchors": [{"file": "pyvallocation/pyvallocation/plotting.py", "symbols": ["_project_to_3d", "plot_assumptions_3d"]}]}
{"id": "C146", "title": "The drawn ellipsoid is the n_std contour of the plotted covariance", "statement": "For a positive semidefinite plotted covariance C every point of the surface lies on the ellipsoid of C (plus 1e-16 on the diagonal) at n_std standard deviations around the mean, so that along every direction it is within n_std standard deviations; the three dashed segments are centred at the mean, orthogonal, along the principal axes of C in decreasing order of variance, and one standard deviation long. (Refuted: for n_std > 1 the ends of the segments are never on the drawn surface.)", "quantifier": "all covariances, n_std, mesh sizes, exact eigen-decompositions", "why_tests_cant": "continuum of surface points and directions", "anchors": [{"file": "pyvallocation/pyvallocation/plotting.py", "symbols": ["_ellipsoid_mesh", "plot_assumptions_3d"]}]}
{"id": "C147", "title": "Scenario clouds are thinned evenly and show true scenarios", "statement": "plot_assumptions_3d shows all scenarios if there are at most max_points, otherwise exactly max_points increasing distinct rows starting at the first and ending at the last row, each at the evenly spaced position rounded down (exact arithmetic; negative max_points raises ValueError); the cloud consists exactly of the projections of those rows, in the same coordinates as the mean, the covariance surface and the uncertainty surface.", "quantifier": "all scenario counts and max_points, all data", "why_tests_cant": "integer truncation of evenly spaced positions for every pair of counts", "anchors": [{"file": "pyvallocation/pyvallocation/plotting.py", "symbols": ["plot_assumptions_3d"]}]}
{"id": "C148", "title": "Which 3-D views are accepted and what the axis labels say", "statement": "For positive semidefinite matrices plot_assumptions_3d succeeds iff covariance, uncertainty and scenarios have as many columns (rows) as the mean and max_points can be honoured. The percentages on the axis labels are in [0,1], decreasing and sum to at most 1; with three or more assets and a symmetric covariance with positive trace they equal the share of the total variance the plotted axis carries. (Refuted: with two assets the axes are the assets, but the labels show the shares of the principal components.)", "quantifier": "all arguments and covariances", "why_tests_cant": "an equivalence over all inputs", "anchors": [{"file": "pyvallocation/pyvallocation/plotting.py", "symbols": ["plot_assumptions_3d", "_project_to_3d"]}]}
{"id": "C149", "title": "Mean-variance answers degrade gracefully with solver tolerance", "statement": "If the quadratic solver's answers violate each constraint by at most d and are at most e worse than every feasible point, MeanVariance.efficient_portfolio returns weights that violate each user constraint and the return target by at most d and whose variance plus impact cost is at most e above that of every admissible portfolio (after the retry, in the ridged objective). If Lagrange multipliers of the true optimum exist and the covariance has least eigenvalue at least m > 0, the squared distance to the true optimum is at most (e + d * sum of multipliers) / m and the cost is within e above and d * sum of multipliers below the optimal cost. An exact solver is the case d = e = 0.", "quantifier": "all solvers with tolerances d, e, all means, covariances, constraints, costs, targets", "why_tests_cant": "must hold for every behaviour of the solver within its tolerances", "anchors": [{"file": "pyvallocation/pyvallocation/optimization.py", "symbols": ["MeanVariance.efficient_portfolio", "MeanVariance._solve_target"]}]}
{"id": "C150", "title": "Mean-CVaR answers degrade gracefully with solver tolerance", "statement": "If the LP solver's answers violate each constraint by at most d and are at most e worse than every feasible point, MeanCVaR.efficient_portfolio returns weights that violate each user constraint and the return target by at most d and whose CVaR plus turnover cost is at most e + d/alpha + 3 d (sum of cost rates) above that of every admissible portfolio.", "quantifier": "all solvers with tolerances d, e, all scenarios, probabilities, alpha > 0, constraints, costs, targets", "why_tests_cant": "must hold for every behaviour of the solver within its tolerances", "anchors": [{"file": "pyvallocation/pyvallocation/optimization.py", "symbols": ["MeanCVaR.efficient_portfolio", "MeanCVaR._solve_target"]}]}
{"id": "C151", "title": "Frontiers degrade gracefully with solver tolerance", "statement": "With solvers within tolerances, each column of a mean-variance or mean-CVaR frontier violates constraints and its return target by at most d and has risk at most e (for CVaR e + d/alpha + 3 d cost rate) above every admissible portfolio reaching that target; the targets run from the first column's return to a number that is the maximal return up to tolerances; with d = 0 risk rises along the frontier up to e. (Refuted: that a frontier is always returned. For every d > 0 there is an LP solver within d, exact otherwise, for which the frontier of a feasible two-asset problem raises RuntimeError even with an exact quadratic solver, because the last target is out of reach.)", "quantifier": "all solvers with tolerances, all problems, all frontier sizes", "why_tests_cant": "must hold for every behaviour of the solvers within their tolerances", "anchors": [{"file": "pyvallocation/pyvallocation/optimization.py", "symbols": ["MeanVariance.efficient_frontier", "MeanCVaR.efficient_frontier", "_FrontierMixin._frontier"]}]}
{"id": "C152", "title": "Maximum Sharpe answers degrade gracefully with solver tolerance", "statement": "With a solver within tolerances d < 1 and e and homogeneous constraints, max_sharpe returns weights summing to exactly one that violate each constraint by at most d * excess return / (1 - d) and whose Sharpe ratio S satisfies (1 - d) S' <= S sqrt(1 + e S'^2) for the ratio S' of every admissible portfolio (positive excess return and variance at the answer).", "quantifier": "all solvers with tolerances, all means, covariances, homogeneous constraints, risk-free rates", "why_tests_cant": "must hold for every behaviour of the solver within its tolerances", "anchors": [{"file": "pyvallocation/pyvallocation/optimization.py", "symbols": ["MeanVariance.max_sharpe"]}]}
{"id": "C153", "title": "Robust answers degrade gracefully with solver tolerance", "statement": "With a conic solver within tolerances d and e, robust portfolios violate each user constraint by at most d, the reported risk is at least the true ellipsoidal risk minus d (and at most the cap plus d), and the worst-case return over the ellipsoid is at most e + lambda d below that of every admissible portfolio.", "quantifier": "all solvers with tolerances, all means, uncertainty matrices, constraints, penalties and caps", "why_tests_cant": "must hold for every behaviour of the solver within its tolerances", "anchors": [{"file": "pyvallocation/pyvallocation/optimization.py", "symbols": ["RobustOptimizer.solve_lambda_variant", "RobustOptimizer.solve_gamma_variant"]}]}
{"id": "C154", "title": "Relaxed risk parity answers degrade gracefully with solver tolerance", "statement": "With a conic solver within tolerances d and e, RelaxedRiskParity.solve returns weights, marginal risks, psi, gamma and rho that satisfy the documented model with every inequality relaxed by d (budget within d of one, floor on risk contributions shifted by d/2 in each factor, ceiling on total risk shifted by d), and whose objective is at most e above that of every point of the exact model.", "quantifier": "all solvers with tolerances, all means, covariances, budgets, regulators, targets, constraints", "why_tests_cant": "must hold for every behaviour of the solver within its tolerances", "anchors": [{"file": "pyvallocation/pyvallocation/optimization.py", "symbols": ["RelaxedRiskParity.solve"]}]}
{"id": "C155", "title": "Discrete allocation reports true weights and tracking error in floating point", "statement": "For any positions below 2^53 shares, long or short, and any budget of at least one unit, the share table of the result lists exactly the non-zero positions, each achieved weight is shares * price / budget up to relative error 3 * 2^-53 (plus underflow), and the tracking error is the sum of the absolute differences between target and exact weights up to the stated rounding bound.", "quantifier": "all share counts, prices, weights, budgets, every order of summation", "why_tests_cant": "rounding errors over all inputs and summation orders", "anchors": [{"file": "pyvallocation/pyvallocation/discrete_allocation.py", "symbols": ["_build_result"]}]}
{"id": "C156", "title": "Greedy purchases stop only when nothing worth buying is affordable, in floating point", "statement": "When the purchase loop of allocate_greedy ends before its iteration limit, for every asset one lot costs more than the remaining cash plus 1e-12, or the asset's weight is no more than 1e-12 below its target, all evaluated in binary64; no asset is written off while a lot of it is affordable.", "quantifier": "all weights, budgets, prices and lots of positive cost, all iteration limits", "why_tests_cant": "a loop of data-dependent length with rounding at each step", "anchors": [{"file": "pyvallocation/pyvallocation/discrete_allocation.py", "symbols": ["allocate_greedy"]}]}
{"id": "C157", "title": "MILP allocation degrades gracefully with solver tolerance", "statement": "When the MILP solver returns a point within d of every row and bound, integer variables within t < 1/2 of an integer and an objective at most e above the optimum, allocate_mip rounds it to whole lots costing at most the budget plus 2d + t * (price of one lot of each asset), long-only when d + t < 1, leaving at most max_leftover plus the same slack, with an objective at most e plus an explicit multiple of d and t above that of every affordable whole-lot allocation; it then reports exactly those lots, or raises RuntimeError exactly when the cost exceeds the budget by 1e-8 or more. If all prices and the budget are multiples of a tick larger than that slack, it never raises and never overspends. (Refuted: that it always answers affordable requests. For every d of 1e-8 or more an affordable request and a solver within d exist for which RuntimeError is raised.)", "quantifier": "all solvers with tolerances d, t, e, all weights, prices, lots, budgets, penalties and leftover caps", "why_tests_cant": "must hold for every behaviour of the solver within its tolerances", "anchors": [{"file": "pyvallocation/pyvallocation/discrete_allocation.py", "symbols": ["allocate_mip", "_build_result"]}]}
{"id": "C158", "title": "Exposure stacking degrades gracefully with solver tolerance", "statement": "With a quadratic solver within tolerances d and e, exposure_stacking and exposure_stack_frontiers return the combination of the samples under sample weights that are at least -d and sum to one within d, whose cross-validated residual is at most e above that of every convex combination; a linear constraint g.x <= h shared by the samples is violated by at most d(|h| + total slack of the samples), and a shared linear equality a.x = b by at most d|b|.", "quantifier": "all solvers with tolerances, all sample matrices, fold counts, frontiers and selections", "why_tests_cant": "must hold for every behaviour of the solver within its tolerances", "anchors": [{"file": "pyvallocation/ensembles.py", "symbols": ["exposure_stacking", "exposure_stack_frontiers"]}]}
{"id": "C159", "title": "Every portfolio of the wrapper satisfies the user's constraints up to solver tolerance", "statement": "With quadratic, linear and conic solvers whose answers violate their own constraints by at most d < 1, every portfolio and frontier column returned by a PortfolioWrapper method has one weight per asset and violates each constraint the user gave (long-only, bounds, relative, group, total weight, additional rows) by at most d; with d = 0 this is exact satisfaction.", "quantifier": "all solver behaviours within tolerance, all wrappers, constraints, costs and method arguments", "why_tests_cant": "must hold for every behaviour of three external solvers within their tolerances", "anchors": [{"file": "pyvallocation/portfolioapi.py", "symbols": ["PortfolioWrapper.variance_frontier", "PortfolioWrapper.cvar_frontier", "PortfolioWrapper.min_variance_at_return", "PortfolioWrapper.min_cvar_at_return", "PortfolioWrapper.robust_lambda_frontier", "PortfolioWrapper.solve_robust_gamma", "PortfolioWrapper.relaxed_risk_parity"]}]}
{"id": "C160", "title": "Wrapper variance optimisation degrades gracefully with solver tolerance", "statement": "With solvers within tolerances d and e, min_variance_at_return answers with weights whose stored expected return is at least the target minus d and whose variance plus market impact (plus the ridge of the retry, if any) is at most e above that of every admissible portfolio reaching the target, and reports the return and volatility of exactly those weights; variance_frontier returns columns each within d of its return target and of the constraints and within e of the least cost for that target, the targets running from the return of the first column to a value that no admissible portfolio exceeds by more than e.", "quantifier": "all solver behaviours within tolerance, all wrappers, targets, constraints and costs", "why_tests_cant": "must hold for every behaviour of the solvers within their tolerances", "anchors": [{"file": "pyvallocation/portfolioapi.py", "symbols": ["PortfolioWrapper.variance_frontier", "PortfolioWrapper.min_variance_at_return"]}]}
{"id": "C161", "title": "Wrapper CVaR optimisation degrades gracefully with solver tolerance", "statement": "With solvers within tolerances d and e, min_cvar_at_return answers with weights whose scenario mean is at least the target minus d and whose CVaR plus turnover cost is at most e + d/alpha + 3 d (sum of cost rates) above that of every admissible portfolio reaching the target, and reports the absolute CVaR of exactly those weights; cvar_frontier returns a permutation of columns near-efficient in the same sense, with non-decreasing reported returns.", "quantifier": "all solver behaviours within tolerance, all wrappers, scenarios, probabilities, alphas, targets and costs", "why_tests_cant": "must hold for every behaviour of the solvers within their tolerances", "anchors": [{"file": "pyvallocation/portfolioapi.py", "symbols": ["PortfolioWrapper.cvar_frontier", "PortfolioWrapper.min_cvar_at_return"]}]}
{"id": "C162", "title": "Wrapper robust optimisation degrades gracefully with solver tolerance", "statement": "With solvers within tolerances d and e, every column of robust_lambda_frontier has a worst-case objective at most e + lambda d above that of every admissible portfolio for its penalty lambda, with estimation risk at most the reported one plus d, columns sorted by reported risk, penalties a permutation of the requested grid; solve_robust_gamma answers with estimation risk at most sqrt(gamma_sigma_sq) + 2d and objective at most e + gamma_mu d above that of every admissible portfolio within the cap.", "quantifier": "all solver behaviours within tolerance, all wrappers, penalty grids, caps and constraints", "why_tests_cant": "must hold for every behaviour of the solvers within their tolerances", "anchors": [{"file": "pyvallocation/portfolioapi.py", "symbols": ["PortfolioWrapper.robust_lambda_frontier", "PortfolioWrapper.solve_robust_gamma"]}]}
{"id": "C163", "title": "Wrapper relaxed risk parity degrades gracefully with solver tolerance", "statement": "With solvers within tolerances d and e, relaxed_risk_parity and relaxed_risk_parity_frontier return points of the documented model relaxed by d whose objective is at most e above that of every exact point; unless the fallback warning is set the return of the weights is at least the recorded effective target minus d, and that target lies between the risk parity return (or 0) and the requested one; return, risk, variance and contributions reported are those of the weights and of the solver's marginal risks.", "quantifier": "all solver behaviours within tolerance, all wrappers, targets, multipliers, regulators and budgets", "why_tests_cant": "must hold for every behaviour of the solvers within their tolerances", "anchors": [{"file": "pyvallocation/portfolioapi.py", "symbols": ["PortfolioWrapper.relaxed_risk_parity", "PortfolioWrapper.relaxed_risk_parity_frontier"]}]}
{"id": "C164", "title": "A wrapper's answers depend on its inputs as they are now", "statement": "After any interleaving of method calls and writes to the caller's arrays, every method answers as a wrapper would that is built anew from the arrays' present contents (with the stored probabilities, and with the estimated moments of the first construction). If no write touches an array the wrapper or the call was given, every question gets the same answer whenever it is asked; arguments numpy had to copy are never affected. (Refuted: writes to the caller's arrays after construction do not change the answers - float64 arrays are kept, not copied; a distribution that was accepted stays free of NaN.)", "quantifier": "every sequence of writes and method calls, every choice of copied and shared arguments", "why_tests_cant": "aliasing shows only in some histories of writes and calls", "anchors": [{"file": "pyvallocation/portfolioapi.py", "symbols": ["AssetsDistribution", "PortfolioWrapper", "TransactionCosts"]}]}
{"id": "C165", "title": "Constraints and estimated moments over a session", "statement": "In any interleaving of writes and method calls in which the inputs hold finite numbers whenever a method is called, every portfolio of every answer satisfies the constraints in force (those of the call, else those of the wrapper). A distribution built from scenarios alone keeps its estimated mean, covariance and probabilities whatever is written to the scenario array, so minimum-variance answers do not change. (Refuted: the stored mean is the mean of the stored scenarios throughout - after a write to the scenario array it is stale, while CVaR answers use the new scenarios.)", "quantifier": "every sequence of writes and method calls", "why_tests_cant": "must hold after every history", "anchors": [{"file": "pyvallocation/portfolioapi.py", "symbols": ["AssetsDistribution", "PortfolioWrapper"]}]}
{"id": "C166", "title": "Custom selectors in ensembles", "statement": "A selector function may return a portfolio or a tuple whose first entry is one: the rest of the tuple is ignored and an empty tuple raises IndexError. A labelled Series is used as it is; an array is accepted iff it has one weight per asset of the frontier (ValueError otherwise) and is given the frontier's labels in order.", "quantifier": "every selector result and frontier", "why_tests_cant": "all lengths and labels", "anchors": [{"file": "pyvallocation/ensembles.py", "symbols": ["assemble_portfolio_ensemble", "_coerce_weights_series"]}]}
{"id": "C167", "title": "A dictionary of mean views used for several calls", "statement": "Whatever FlexibleViewsProcessor calls are made with one dictionary of mean views, successful or not: its entries stay, and only 'first at least second' views for pairs some call ranked are added, each once, never replacing a view on that pair; without rankings nothing is added. The ranking of a successful call is part of every later successful call with that dictionary, and with mean views only the later posterior means follow it. Repeating a successful call, with or without its ranking, gives the same answer. Every ranked asset must exist in the data of all later successful calls. (Refuted: a failed call has no effect - its ranking stays and can make every later call with the dictionary fail.)", "quantifier": "every sequence of calls, views and data", "why_tests_cant": "depends on the history of calls, including failed ones", "anchors": [{"file": "pyvallocation/views.py", "symbols": ["FlexibleViewsProcessor"]}]}
{"id": "C168", "title": "An array of market weights used for several calls", "statement": "Whatever BlackLittermanProcessor calls are made with one array of market weights, successful or not, each gives the posterior or the error it would give with the original array; the array ends up unchanged or divided by its sum, once. (Refuted: a call that fails leaves it alone.)", "quantifier": "every sequence of calls", "why_tests_cant": "depends on the history of calls, including failed ones", "anchors": [{"file": "pyvallocation/views.py", "symbols": ["BlackLittermanProcessor"]}]}
{"id": "C169", "title": "Entropy pooling with a solver that stops early", "statement": "If the solver's multipliers meet the first-order conditions up to eps and add up to at most B, the posterior's relative entropy to the prior exceeds that of any distribution obeying the views (with e^-700 per scenario) by at most an explicit multiple of eps (B + inequality rows); two solvers or methods give probabilities whose total absolute difference is at most an explicit multiple of the square root of the same; and as eps goes to 0 with B bounded, the posterior tends to the closest distribution obeying the views.", "quantifier": "every prior, list of view rows, tolerance, solver and method", "why_tests_cant": "SLSQP/TNC stop at a tolerance; how far the result is from the optimum depends on the whole problem", "anchors": [{"file": "pyvallocation/views.py", "symbols": ["entropy_pooling", "_entropy_pooling_dual_objective"]}]}
{"id": "C170", "title": "Mean views with a solver that stops early", "statement": "With mean views only (dictionary, vector or ranking; simultaneous or sequential), the posterior probabilities are positive and sum to one, every view holds up to eps/(1000-eps) relative to its target, no distribution meeting the views is closer to the prior except by an explicit multiple of the tolerance, and with two solvers the probabilities, posterior means and posterior covariances differ by at most explicit multiples of the square root of the tolerance and of the largest scenario value.", "quantifier": "every prior, set of mean views, tolerance and solver", "why_tests_cant": "the error bound must hold for all scenarios and views", "anchors": [{"file": "pyvallocation/views.py", "symbols": ["FlexibleViewsProcessor", "entropy_pooling"]}]}
{"id": "C171", "title": "The Black-Litterman convenience function", "statement": "posterior_moments_black_litterman returns the mean and covariance of the BlackLittermanProcessor built from the same arguments, or the same error, whenever omega is given. With omega omitted it derives the view uncertainties from confidences: one view held with confidence p moves the viewed mean exactly the fraction p of the way from the prior to the target, and a call with views but no confidences raises ValueError whatever else is given. (Refuted: with the same arguments it answers as the processor does; the processor defaults to confidence-free uncertainties.)", "quantifier": "every prior, view, confidence and keyword argument", "why_tests_cant": "must hold for all inputs and argument combinations", "anchors": [{"file": "pyvallocation/moments.py", "symbols": ["posterior_moments_black_litterman"]}, {"file": "pyvallocation/views.py", "symbols": ["BlackLittermanProcessor"]}]}
{"id": "C172", "title": "Relaxed risk parity with raw arrays", "statement": "RelaxedRiskParity called with numpy arrays answers or raises exactly as the relaxed risk parity programme on the rows of G and A with the right-hand sides h and b: an answer is long-only, satisfies every row of G w <= h and every row of A w = b, and sums to one when A is omitted; a right-hand side given without a matrix is ignored. A call whose covariance is not square, whose mean or matrices do not have one entry or column per asset, whose right-hand sides do not have one entry per row, or whose budgets are not positive with one per asset, raises an exception whatever the solvers do; in particular a single constraint row must not be passed as a one-dimensional array unless there is one asset. (Refuted: inner lists of a nested list are the rows of the matrix; they are its columns. A matrix without right-hand side is refused; with one row the bound becomes NaN and the solvers are called.)", "quantifier": "every mean, covariance, constraint argument, budget, lambda and target", "why_tests_cant": "must hold for all shapes, constraint sets and solver answers", "anchors": [{"file": "pyvallocation/optimization.py", "symbols": ["RelaxedRiskParity.__init__", "RelaxedRiskParity.solve", "RelaxedRiskParity._extract_user_constraints"]}]}
{"id": "C173", "title": "Views of several kinds with a solver that stops early", "statement": "With mean, volatility, variance, skewness and correlation views in simultaneous mode and a solver accurate to eps: the posterior probabilities are positive and sum to one; every view fixes or bounds its raw moment up to eps/(1000-eps) relative to its size, given the moments of a reference distribution (the prior without mean views, otherwise one meeting the mean views up to the tolerance); on an asset with an equality view on its mean, the variance misses the squared volatility or variance target by at most an explicit multiple of the tolerance, and the volatility its target accordingly; no distribution meeting all views with the reference moments is closer to the prior except by an explicit multiple of the tolerance; and without mean views two solvers give probabilities that differ by at most an explicit multiple of the square root of the tolerance.", "quantifier": "every prior, set of views, tolerance and solver", "why_tests_cant": "the error bounds must hold for all scenarios, views and solvers", "anchors": [{"file": "pyvallocation/views.py", "symbols": ["FlexibleViewsProcessor", "entropy_pooling"]}]}
{"id": "C174", "title": "An ensemble of specs is made of what its specs return", "statement": "assemble_portfolio_ensemble of no specs raises ValueError. Otherwise its selections are, in the order of the specs and under their names, what each spec's selector returned (a Series as it is, an array labelled with the frontier's assets, of a tuple the first entry); its frontiers hold under each name the frontier of the last spec so named. With combine='selected' the average at an asset is the sum of the selections' weights for that asset by the specs' shares (ensemble weights over their total, equal without any), missing if some selection does not list the asset. With combine='frontier', distinct names and no weights or a sequence, it is the same sum over one column per frontier: the one requested, or the first of least risk; it carries the frontiers' asset labels.", "quantifier": "every list of specs, frontiers, selectors, weights and both combination modes", "why_tests_cant": "the blend must follow the specs whatever order, labels and portfolios they return", "anchors": [{"file": "pyvallocation/ensembles.py", "symbols": ["assemble_portfolio_ensemble", "_coerce_weights_series", "average_exposures", "average_frontiers", "EnsembleResult"]}]}
{"id": "C175", "title": "View helpers mean what they say", "statement": "A number meets at_least(x) iff it is at least x, at_most(x) iff it is at most x, and between(lo, hi) iff it lies in the closed range; between raises ValueError exactly when lo exceeds hi. In every kind of view, '>' and '<' (above, below) are read as the weak bounds: FlexibleViewsProcessor gives the same posterior, moments or error. (Refuted: above(x) asks for strictly more than x - the posterior mean can be exactly x.)", "quantifier": "every number, range and set of flexible views", "why_tests_cant": "the reading of bounds must be the same for all views and solvers", "anchors": [{"file": "pyvallocation/views.py", "symbols": ["at_least", "at_most", "between", "above", "below", "_parse_view_specs", "FlexibleViewsProcessor"]}]}
{"id": "C176", "title": "discretize_weights matches methods and options as documented", "statement": "On data that passes validation (otherwise ValueError, whatever the method and options) discretize_weights reads the method without regard to case: 'greedy' and 'rounddown' give the same outcome, so do 'milp', 'mip', 'integer' and 'lp', and every other name raises ValueError. The greedy method takes max_iterations, fallback_mode and fallback_kwargs, the MILP cash_penalty, max_cash and solver_options; any other keyword raises TypeError. The MILP run gets the penalty, the cash cap and the solver options given (penalty 1 and no cap by default). fallback_kwargs reach it unchanged: with a short position the greedy method is the MILP run with them, and without one the 'milp' fallback gives either the greedy result whatever the options or that MILP run. Whatever the options, a successful call accounts for every share and all cash. (Refuted: errors in fallback options are reported - under 'auto' a misspelled option is swallowed and the greedy result returned.)", "quantifier": "every data set, method name, keyword dict, sort and solver", "why_tests_cant": "the dispatch must hold for all strings and keyword combinations, and the accounting for all of them", "anchors": [{"file": "pyvallocation/discrete_allocation.py", "symbols": ["discretize_weights", "allocate_greedy", "allocate_mip"]}]}
{"id": "C177", "title": "Estimator options are checked against the chosen estimator", "statement": "estimate_moments raises TypeError when mean_kwargs or cov_kwargs contain a keyword the chosen estimator does not have - jorion: none; james_stein: target; huber: allow_vectorized, tol, max_iter; median_of_means: n_blocks, random_state; ledoit_wolf: target; oas: assume_centered; nls: input_is_cov, dof_correction; poet: k, thresh, standardize, return_decomp; tyler: shrinkage, target, tol, max_iter, ensure_psd; glasso: alpha, assume_centered, return_precision; ewma: span, min_periods - under any spelling of the estimator, whatever the other options, once the data (and for a covariance option the mean) are accepted. (Refuted: the same for the sample mean and the sample covariance, which ignore whatever options they are given.)", "quantifier": "every data set, pair of estimators, spelling and keyword dicts", "why_tests_cant": "there are unboundedly many keyword sets, and the outcome must not depend on the other ones", "anchors": [{"file": "pyvallocation/moments.py", "symbols": ["estimate_moments"]}]}
{"id": "C178", "title": "Exposure stacking answers for every usable panel, within the samples' range", "statement": "With a solver that finds an optimum whenever there is one, exposure_stacking(panel, L) answers whenever the panel has at least L samples and L is at least 2, and raises ValueError for an empty panel or any other L; when the solver stops without an optimum it raises RuntimeError. The stacked exposure to an asset lies between the smallest and the largest of the samples, so an exposure on which all samples agree is reproduced. With as many folds as samples (leave one out) the set of possible stacks does not depend on the order of the samples. (Refuted: the same with fewer folds - the same three samples in reversed order stack to 1 or to 0.)", "quantifier": "every panel of samples, number of folds, solver and reordering of the samples", "why_tests_cant": "the existence of an optimum, the range and the invariance must hold for every panel", "anchors": [{"file": "pyvallocation/ensembles.py", "symbols": ["exposure_stacking"]}]}
{"id": "C179", "title": "A MILP allocation holds the solver's numbers rounded to the nearest lot", "statement": "When discretize_weights solves the MILP and returns an allocation, every asset is given a whole number of lots that is an integer nearest to the number the solver returned for that asset (the even one when two are equally near), times the asset's lot size - also when the solver's answer is not exactly integral.", "quantifier": "every validated input, solver answer, cash penalty and cash cap", "why_tests_cant": "the solver's answer may be any vector of numbers", "anchors": [{"file": "pyvallocation/discrete_allocation.py", "symbols": ["allocate_mip", "discretize_weights"]}]}
