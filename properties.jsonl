{"id": "C01", "title": "iterated_ewma never looks ahead", "statement": "Appending further rows to `returns` never changes, removes or reorders any item iterated_ewma already yielded for the shorter frame: the outputs on a prefix are a prefix of the outputs on the whole frame, and every additional item carries a timestamp of an appended row.", "quantifier": "every returns frame, every split point, every half-life, min_periods, clip_at, mean and nan_to_num setting, and every arithmetic (rounded or exact)", "why_tests_cant": "a test compares two finite runs; look-ahead can hide in any later row and any parameter combination", "anchors": ["cvx/covariance/ewma.py:iterated_ewma", "cvx/covariance/ewma.py:_general", "cvx/covariance/ewma.py:center", "cvx/covariance/ewma.py:volatility", "cvx/covariance/ewma.py:clip"]}
{"id": "C02", "title": "EWMA closed form", "statement": "Without clipping the exponentially weighted estimate at the k-th observation is exactly the normalised weighted average sum_s b^(k-s) y_s / sum_s b^(k-s) with b = 2^(-1/halflife); consequently volatility()^2 is that average of squared returns and the EWMA mean used by center() is that average of returns.", "quantifier": "every column of every finite series of any length, every positive half-life, every min_periods", "why_tests_cant": "the recursion with the bias-correction factor must agree with the closed form after every number of steps", "anchors": ["cvx/covariance/ewma.py:_general", "cvx/covariance/ewma.py:_ewma_mean", "cvx/covariance/ewma.py:volatility", "cvx/covariance/ewma.py:center"]}
{"id": "C03", "title": "Half-life means half-life", "statement": "In every emitted EWMA the weight given to an observation h = halflife periods older than another is exactly half of it, the weights are positive, non-increasing with age and sum to one; a constant series is reproduced exactly.", "quantifier": "every length, every position, every positive half-life", "why_tests_cant": "it is a statement about all pairs of positions of all series lengths", "anchors": ["cvx/covariance/ewma.py:_general"]}
{"id": "C04", "title": "Output schedule of iterated_ewma", "statement": "For a frame of T rows (no all-NaN adjusted row, mean=False) iterated_ewma yields exactly one item for each row from position max(1,min_periods_vola)+max(1,min_periods_cov)-2 (0-based) onward, in index order, with that row's timestamp; if T is at least min_periods_vola but too short it yields nothing, and if T < max(1,min_periods_vola) it raises IndexError. More generally, without clipping and with any mean setting: if row m is the first row in which some asset has a non-zero (centred) return, the first item is at position max(max(1,min_periods_vola)-1, m)+max(1,min_periods_cov)-1 (0-based) and one follows per row; if no asset ever moves, IndexError is raised. In every case (clipping included) the rows used are those after the volatility warm-up in which some asset has a volatility or a centred return other than 0; the items start at the max(1,min_periods_cov)-th of them, and IndexError is raised if there is none.", "quantifier": "every T, every pair of minimum periods, every data set in that class", "why_tests_cant": "off-by-one errors in warm-up only show at particular T/min_periods combinations", "anchors": ["cvx/covariance/ewma.py:iterated_ewma", "cvx/covariance/ewma.py:_general", "cvx/covariance/ewma.py:_ewma_cov", "cvx/covariance/ewma.py:_ewma_mean"]}
{"id": "C05", "title": "IEWMA covariance is a covariance", "statement": "Every covariance yielded by iterated_ewma on finite data is symmetric, has the squares of the reported volatilities on its diagonal, and is positive semidefinite; its implied correlations lie in [-1,1]. (Assets whose adjusted returns are all zero so far have NaN rows and columns; the statement is about the remaining block.)", "quantifier": "every finite returns frame, every parameter choice with mean=False or mean=True, every emitted time", "why_tests_cant": "positive semidefiniteness quantifies over all vectors and all histories", "anchors": ["cvx/covariance/ewma.py:iterated_ewma", "cvx/covariance/ewma.py:_ewma_cov"]}
{"id": "C06", "title": "Exactly which entries are NaN", "statement": "With nan_to_num=True and finite returns, entry (i,j) of a yielded covariance is NaN exactly when asset i or asset j has had only zero adjusted returns up to that time (after the second centring if mean=True); every other entry is a finite number. No NaN in the input survives into the output otherwise.", "quantifier": "every frame with arbitrary NaN pattern, every emitted time and entry", "why_tests_cant": "the NaN pattern of the input ranges over all subsets of cells", "anchors": ["cvx/covariance/ewma.py:iterated_ewma"]}
{"id": "C07", "title": "NaN handling is zero filling", "statement": "With nan_to_num=True, iterated_ewma(returns) yields exactly the same items as iterated_ewma(returns with every NaN replaced by 0).", "quantifier": "every frame, every NaN pattern, every parameter choice, every arithmetic", "why_tests_cant": "all NaN patterns", "anchors": ["cvx/covariance/ewma.py:iterated_ewma"]}
{"id": "C08", "title": "Without nan_to_num one NaN poisons the asset forever", "statement": "With nan_to_num=False, once an asset has one NaN return, every later volatility of that asset that is emitted is NaN and so is the whole row and column of every later emitted covariance, however many valid returns follow (the comment in the code promises the opposite).", "quantifier": "every frame, every position of the NaN, every later time", "why_tests_cant": "unbounded future", "anchors": ["cvx/covariance/ewma.py:_general", "cvx/covariance/ewma.py:iterated_ewma"]}
{"id": "C09", "title": "Winsorised volatility update is bounded", "statement": "With clip_at=c, once observation number min_periods_vola+1 is reached the variance estimate after one more observation lies between 0 and (1 + w*(c^2-1)) times the previous one, where w is the weight of the new observation: no single return, however large, can move it further; returns within c volatilities are not altered.", "quantifier": "every history, every new return value, every c", "why_tests_cant": "the bound must hold for arbitrarily large outliers and all histories", "anchors": ["cvx/covariance/ewma.py:_general", "cvx/covariance/ewma.py:volatility"]}
{"id": "C10", "title": "Zero-volatility trap of winsorisation", "statement": "If clip_at is set and an asset's first min_periods_vola+1 (centred) returns are zero, its reported volatility is exactly 0 at every later time no matter what returns follow, and every later finite covariance entry of that asset is 0 (so covariance combination then fails on a singular matrix); without clip_at the volatility becomes positive at the first non-zero return.", "quantifier": "every continuation of the series of any length", "why_tests_cant": "it is a statement about all futures", "anchors": ["cvx/covariance/ewma.py:_general", "cvx/covariance/ewma.py:volatility", "cvx/covariance/ewma.py:iterated_ewma"]}
{"id": "C11", "title": "clip is a symmetric projection", "statement": "clip(data, c) returns the rows of data that are not entirely NaN, each entry limited to [-|c|,|c|]; entries already inside are unchanged, NaN stays NaN, infinities become +-|c|, clipping twice equals clipping once, and c and -c give the same result; c=None or 0 means no clipping.", "quantifier": "every frame and every clip level", "why_tests_cant": "all frames including special values", "anchors": ["cvx/covariance/ewma.py:clip"]}
{"id": "C12", "title": "center decomposes the data", "statement": "With mean_adj=True, center returns (d, m) such that m is the EWMA mean and d + m reproduces the data on the index of d; with mean_adj=False it returns the data unchanged together with a zero mean. The first centred row is zero.", "quantifier": "every finite frame, half-life and min_periods", "why_tests_cant": "all frames", "anchors": ["cvx/covariance/ewma.py:center"]}
{"id": "C13", "title": "Asset order is irrelevant", "statement": "Permuting the columns of `returns` permutes the items yielded by iterated_ewma (mean, volatility, rows and columns of the covariance) and changes nothing else, including the set of emitted times.", "quantifier": "every frame, every permutation, every parameter choice, every arithmetic", "why_tests_cant": "n! permutations of arbitrary n", "anchors": ["cvx/covariance/ewma.py:iterated_ewma"]}
{"id": "C14", "title": "Unit invariance of iterated_ewma", "statement": "Multiplying each asset's returns by its own positive constant multiplies that asset's mean and volatility by the constant and covariance entry (i,j) by the product of the two constants; clipping does not break this.", "quantifier": "every finite frame, every vector of positive constants, every parameter choice", "why_tests_cant": "all frames and constants", "anchors": ["cvx/covariance/ewma.py:iterated_ewma"]}
{"id": "C15", "title": "mean=True with short warm-up emits an all-NaN covariance", "statement": "With mean=True and min_periods_cov <= 1 the first covariance yielded is entirely NaN for every input; in general, clipped or not, an entry is NaN exactly when the centred adjusted returns of one of its two assets vanish up to that time (without clipping: exactly when the adjusted returns are constant).", "quantifier": "every frame and every parameter choice in that class", "why_tests_cant": "universally quantified failure", "anchors": ["cvx/covariance/ewma.py:iterated_ewma", "cvx/covariance/ewma.py:center"]}
{"id": "C16", "title": "Combined covariance is symmetric positive definite", "statement": "Whenever solve() yields a Result, its covariance is symmetric positive definite, its inverse is L L^T where L is the weighted average (with the reported weights) of the experts' lower-triangular Cholesky precision factors at that time, and L^T mean equals the same weighted average of L_k^T mean_k.", "quantifier": "every set of positive definite expert forecasts, every returns frame, every window, every feasible weight vector returned by the solver", "why_tests_cant": "positive definiteness for all weights and experts", "anchors": ["cvx/covariance/combination.py:_CovarianceCombination._solve", "cvx/covariance/combination.py:_cholesky_precision", "cvx/covariance/combination.py:_nu"]}
{"id": "C17", "title": "Combination never looks ahead", "statement": "For a fixed window not exceeding the available history, the Result at time t depends only on expert forecasts dated t or earlier and returns dated t or earlier: if neither run raises, appending later forecasts and returns leaves all earlier Results unchanged.", "quantifier": "every history, every continuation, every window, every arithmetic and every deterministic solver", "why_tests_cant": "all continuations", "anchors": ["cvx/covariance/combination.py:_CovarianceCombination.solve", "cvx/covariance/combination.py:_CovarianceCombination.__init__"]}
{"id": "C18", "title": "Forecasts are scored on the next return", "statement": "The data scored at time t pairs the return of t with the factor and mean every expert issued at the immediately preceding forecast time, never with its own forecast of t.", "quantifier": "every history and window", "why_tests_cant": "alignment must hold at every position", "anchors": ["cvx/covariance/combination.py:_CovarianceCombination.__init__", "cvx/covariance/combination.py:_B_t_col", "cvx/covariance/combination.py:_CovarianceCombination.solve"]}
{"id": "C19", "title": "The combination objective is the window log-likelihood", "statement": "The objective handed to the solver at time t equals, up to the constant (n*window/2) log 2 pi independent of the weights, the Gaussian log-likelihood of the last `window` returns under mean and covariance of the combined predictor built from the lagged experts with those weights.", "quantifier": "every window, every set of positive definite experts, every weight vector with positive combined diagonal", "why_tests_cant": "an identity between functions on a continuum", "anchors": ["cvx/covariance/combination.py:_CombinationProblem", "cvx/covariance/combination.py:_A", "cvx/covariance/combination.py:_CovarianceCombination.solve", "experiments/utils/experiment_utils.py:_single_log_likelihood"]}
{"id": "C20", "title": "Weights are uniquely determined", "statement": "Whenever solve() reaches the optimiser, the problem has exactly one optimal weight vector on the simplex, so weights do not depend on the solver; reordering the experts permutes the weights and leaves mean and covariance unchanged.", "quantifier": "every data set for which the quadratic term is positive definite, every permutation of experts", "why_tests_cant": "uniqueness over a continuum", "anchors": ["cvx/covariance/combination.py:_CombinationProblem", "cvx/covariance/combination.py:_CovarianceCombination.solve"]}
{"id": "C21", "title": "A single expert is returned unchanged", "statement": "With one expert the only feasible weight is 1 and every yielded covariance and mean equals that expert's own forecast for that time.", "quantifier": "every expert series, every window", "why_tests_cant": "all inputs", "anchors": ["cvx/covariance/combination.py:_CovarianceCombination._solve"]}
{"id": "C22", "title": "Agreement of experts is preserved", "statement": "If all experts give the same covariance and mean at time t then the yielded covariance and mean at t are exactly those, whatever the weights.", "quantifier": "every weight vector on the simplex, any number of experts", "why_tests_cant": "all weights", "anchors": ["cvx/covariance/combination.py:_CovarianceCombination._solve"]}
{"id": "C23", "title": "Schedule of solve()", "statement": "With N common forecast times, solve(window=w) yields one entry for each common forecast time from position max(1, min(w, N-1)) on (0-based), in order; window None or 0 means N-1 and yields exactly one entry; with N <= 1 it raises IndexError.", "quantifier": "every N and w", "why_tests_cant": "all sizes", "anchors": ["cvx/covariance/combination.py:_CovarianceCombination.solve"]}
{"id": "C24", "title": "solve(times=...) agrees with solve()", "statement": "Restricting to consecutive available times yields for each requested time exactly the entry of the unrestricted run, provided the first requested time has at least window-1 predecessors; otherwise the first window-1 requested times are silently dropped even if the unrestricted run has results for them; non-consecutive requests raise AssertionError, unknown first time KeyError, empty request IndexError.", "quantifier": "every request list, every window, every history", "why_tests_cant": "negative slice indices misbehave only for particular positions", "anchors": ["cvx/covariance/combination.py:_CovarianceCombination.solve"]}
{"id": "C25", "title": "Solver failures are isolated", "statement": "If the optimiser raises SolverError at some time, the entry for exactly that time is None and all other entries are what they would have been otherwise.", "quantifier": "every subset of failing times", "why_tests_cant": "2^T failure patterns", "anchors": ["cvx/covariance/combination.py:_CovarianceCombination.solve"]}
{"id": "C26", "title": "Degenerate windows abort the whole run", "statement": "If the quadratic term of any requested window is not positive definite (for instance two experts identical throughout a window, or fewer scored numbers than experts), solve() raises LinAlgError before yielding anything, including the results of earlier, healthy windows.", "quantifier": "every position of the degenerate window", "why_tests_cant": "all positions", "anchors": ["cvx/covariance/combination.py:_CovarianceCombination.solve"]}
{"id": "C27", "title": "Experts must cover the same times", "statement": "Constructing a combination from experts whose time keys differ as sets raises (AttributeError), and means whose keys differ from the covariances' raise AssertionError (KeyError if an expert is missing); when all experts share their times and matrices are positive definite construction succeeds.", "quantifier": "every dictionary of experts", "why_tests_cant": "all key patterns", "anchors": ["cvx/covariance/combination.py:_CovarianceCombination.__init__", "cvx/covariance/combination.py:_nu"]}
{"id": "C28", "title": "Unit invariance of the combination", "statement": "Scaling returns and means by c>0 and expert covariances by c^2 leaves the weights unchanged and scales mean by c and covariance by c^2. More generally each asset may be measured in a unit of its own: multiplying asset i's returns and means by d_i>0 and the covariance entries (i,j) by d_i d_j never makes a completing run fail, leaves the weights unchanged and rescales mean and covariance the same way.", "quantifier": "every c>0, every positive unit per asset and every data set", "why_tests_cant": "continuum", "anchors": ["cvx/covariance/combination.py:_CovarianceCombination.solve"]}
{"id": "C29", "title": "Zero mean is the default", "statement": "Omitting means is the same as supplying zero means, and the yielded means are then exactly zero.", "quantifier": "every data set and weights", "why_tests_cant": "all inputs", "anchors": ["cvx/covariance/combination.py:_CovarianceCombination.__init__"]}
{"id": "C30", "title": "from_ewmas is from_sigmas of the IEWMA experts", "statement": "from_ewmas(returns, pairs) behaves as from_sigmas fed with the covariances and means yielded by iterated_ewma for each pair (a later pair with the same label overwrites an earlier one), with K equal to the number of distinct pair labels; an exception of one pair's iterated_ewma is the result; all experts cover the same times (every row from position max(1,min_periods_vola)+max(1,min_periods_cov)-2) whenever some return (mean=True: some change of a return) is non-zero during the volatility warm-up.", "quantifier": "every list of pairs and every frame", "why_tests_cant": "all inputs", "anchors": ["cvx/covariance/combination.py:from_ewmas", "cvx/covariance/combination.py:_map_nested_dicts"]}
{"id": "C31", "title": "Regularisation preserves variances", "statement": "The matrix yielded by regularize_covariance has exactly the diagonal of the input and is symmetric, for every rank r.", "quantifier": "every covariance with positive diagonal, every rank, every eigen-solver output", "why_tests_cant": "continuum of matrices", "anchors": ["cvx/covariance/regularization.py:regularize_covariance", "cvx/covariance/regularization.py:_regularize_correlation"]}
{"id": "C32", "title": "Regularisation yields factor structure and stays a covariance", "statement": "For a positive semidefinite input the yielded matrix is rank-r plus a non-negative diagonal, hence positive semidefinite; with r = n the input is returned.", "quantifier": "every positive semidefinite input, every r", "why_tests_cant": "semidefiniteness over all vectors", "anchors": ["cvx/covariance/regularization.py:regularize_covariance", "cvx/covariance/regularization.py:_regularize_correlation"]}
{"id": "C33", "title": "Low-rank format is the same matrix", "statement": "F F^T + diag(d) from low_rank_format=True equals the dense matrix of low_rank_format=False, with d >= 0 for a positive semidefinite input.", "quantifier": "every input and rank", "why_tests_cant": "continuum", "anchors": ["cvx/covariance/regularization.py:regularize_covariance"]}
{"id": "C34", "title": "EM never decreases the likelihood", "statement": "Each expectation-maximisation iteration of em_regularize_covariance, hence all five, does not decrease the Gaussian log-likelihood of the given covariance under the model F F^T + diag(d).", "quantifier": "every positive definite covariance, every starting F and positive d", "why_tests_cant": "continuum of inputs", "anchors": ["cvx/covariance/regularization.py:_e_step", "cvx/covariance/regularization.py:_m_step", "cvx/covariance/regularization.py:_em_low_rank_approximation"]}
{"id": "C35", "title": "EM keeps a valid factor model", "statement": "Starting from positive d and a positive definite covariance, every EM iteration succeeds (no singular matrix) and produces positive d, so the result F F^T + diag(d) is positive definite.", "quantifier": "every input", "why_tests_cant": "continuum", "anchors": ["cvx/covariance/regularization.py:_e_step", "cvx/covariance/regularization.py:_m_step", "cvx/covariance/regularization.py:em_regularize_covariance"]}
{"id": "C36", "title": "Exact factor models are fixed points of EM", "statement": "If the covariance already equals F F^T + diag(d) with positive d, em_regularize_covariance started at (F,d) returns (F,d).", "quantifier": "every F and positive d", "why_tests_cant": "continuum", "anchors": ["cvx/covariance/regularization.py:_e_step", "cvx/covariance/regularization.py:_m_step"]}
{"id": "C37", "title": "rolling_window forgets nothing of the first day", "statement": "rolling_window is documented by name as the covariance over the last `memory` rows, but its output at row t is (sum of the outer products in the window + the outer product of the first row) / min(t+2, memory): the first row is counted twice during warm-up and never leaves the window.", "quantifier": "every series, every memory >= 2, every t >= 1", "why_tests_cant": "all histories", "anchors": ["experiments/utils/experiment_utils.py:rolling_window"]}
{"id": "C38", "title": "Vectorised EWMA agrees with the library EWMA", "statement": "The recursion of iterated_ewma_vec.ewma with old/new weights equals that of the library EWMA at every step, except that the first observation's item is not yielded; weights are a convex combination; requesting clipping without a positive min_periods raises AssertionError.", "quantifier": "every series and parameters", "why_tests_cant": "all lengths", "anchors": ["experiments/utils/iterated_ewma_vec.py:get_next_ewma", "experiments/utils/iterated_ewma_vec.py:ewma"]}
{"id": "C39", "title": "Low-rank EWMA keeps variances", "statement": "One low-rank update returns non-negative d, never decreases a variance, and with exact eigenvectors preserves the diagonal of F F^T + diag(d) + r r^T exactly; what the new factors leave out is positive semidefinite with its diagonal moved to d, and nothing is left out while the rank suffices. Hence every item of a run has the exponentially weighted second moments of all rows so far as variances. The rescaled predictor has exactly the squared volatilities as diagonal.", "quantifier": "every F, d, r, every eigen-solver output, every history of rows", "why_tests_cant": "continuum", "anchors": ["experiments/utils/low_rank_ewma.py:_low_rank_sum", "experiments/utils/low_rank_ewma.py:low_rank_iterated_ewma"]}
{"id": "C40", "title": "Portfolio growth and drawdown", "statement": "get_portfolio_growth compounds the daily returns; compute_max_drawdown returns the maximum over pairs s<=t of (V_s - V_t)/V_s, lies in [0,1) for positive values, is 0 iff values never fall, and is invariant under rescaling.", "quantifier": "every sequence of returns", "why_tests_cant": "all pairs of all sequences", "anchors": ["experiments/utils/trading_model.py:get_portfolio_growth", "experiments/utils/trading_model.py:compute_max_drawdown"]}
{"id": "C41", "title": "Cash dilution hits the target and keeps the budget", "statement": "dilute_with_cash turns a fully invested portfolio into weights that still sum to one, are proportional to the old ones and have predicted annualised volatility exactly sigma_des; get_vol_cont_w does the same for minimum-risk portfolios with target sigma_des*sqrt(adjust_factor).", "quantifier": "every portfolio with positive predicted risk, every target", "why_tests_cant": "continuum", "anchors": ["experiments/utils/trading_model.py:dilute_with_cash", "experiments/utils/trading_model.py:get_vol_cont_w"]}
{"id": "C42", "title": "Trader history effects", "statement": "Once a Trader has been diluted, later calls with another sigma_des, and even later backtests, keep using the weights of the first dilution: diluted get_metrics depends on the history of calls, not only on its arguments. The first diluted evaluation is the one that dilutes.", "quantifier": "every sequence of backtest/get_metrics calls", "why_tests_cant": "all histories", "anchors": ["experiments/utils/trading_model.py:Trader"]}
{"id": "C43", "title": "Constraints leak between backtests", "statement": "Because the default constraint list is shared, the k-th backtest call without explicit constraints solves a problem that also contains every constraint of the earlier ones: lists only grow; a call whose limits no portfolio can meet (the default limits for at most six assets) makes every later min_risk call return no weights although its own problem is feasible; if the leaked constraints can be met, results are the same as in a new process.", "quantifier": "every sequence of calls", "why_tests_cant": "all histories", "anchors": ["experiments/utils/trading_model.py:Trader.backtest"]}
{"id": "C44", "title": "robust_min_risk ignores later volatilities", "statement": "In robust_min_risk backtests every day is solved with the first day's volatility vector: the per-day volatilities are never passed to the worker.", "quantifier": "every number of days and data", "why_tests_cant": "all inputs", "anchors": ["experiments/utils/trading_model.py:Trader.backtest", "experiments/utils/trading_model.py:Trader.solve_min_risk"]}
{"id": "C45", "title": "Backtests trade on yesterday's forecast", "statement": "_get_causal(returns, Sigmas, start, end, mus) keeps exactly the dates t whose next row of the frame also lies in [start, end] and has no missing return; it pairs each with that next row and with the forecasts Sigmas[t] (mus.loc[t]) issued at t, in order. Without missing returns these are all dates of the window but the last. If a kept date has no forecast it raises KeyError, and only then.", "quantifier": "every frame with increasing dates, with or without NaN, every window and every dictionary of forecasts", "why_tests_cant": "an off-by-one in the pairing is look-ahead; all positions, gaps and windows", "anchors": ["experiments/utils/portfolio_backtests.py:_get_causal"]}
{"id": "C46", "title": "Factor model tiling", "statement": "A completed construct_cmiewma_factor_model emits each date from position `memory` to the end exactly once and in order, provided the factor returns of each block start to move early enough for the warm-up; a run stopped by an exception has emitted whole blocks only. Without that proviso dates can be missing at the start of a block but order and block ends stay. Each item uses the exposures computed from the `memory` rows strictly before its block, the half-life-21 weighted mean of squared residuals up to its date, and a positive definite combination of the experts' covariances at its date. With healthy data and a solver that finds optima the run completes.", "quantifier": "every data set without NaN, number of assets and factors, memory >= 10 (>= 3k+8 for the tiling), update_frequency >= 1, every pca function and solver", "why_tests_cant": "boundary arithmetic of blocks, all data", "anchors": ["experiments/utils/factor_model.py:construct_cmiewma_factor_model", "experiments/utils/factor_model.py:construct_factor_covariance"]}
{"id": "C47", "title": "Return combination: ridge weights from the past", "statement": "ReturnCombinator.fit returns, for every date t from position memory on and every asset, weights that are the unique minimiser of the weighted ridge problem of the memory days before t (residuals weighted with a 500-day half-life, penalty alpha times the mean square of each prediction column before t); the forecast is the prediction for t times these weights. Weights depend only on that asset's last memory returns and on its own earlier predictions. With alpha > 0 and no column that is zero on all of the first memory days, fit succeeds exactly if the returns have no extra dates inside the predictors' range; otherwise (memory >= 2) it raises ValueError although the check only asks for a subset.", "quantifier": "every data set, alpha, memory >= 1, two runs of any length", "why_tests_cant": "continuum of inputs, all positions, pairs of runs", "anchors": ["experiments/utils/return_combination.py:ReturnCombinator.fit", "experiments/utils/return_combination.py:ReturnCombinator._get_weights"]}
{"id": "C48", "title": "Scale half-life of the return combinator is not a half-life", "statement": "The scales use decay 250/251 (the number is passed as centre of mass), not 2^(-1/250): the weight of an observation 250 periods older is not one half.", "quantifier": "every series", "why_tests_cant": "arithmetical identity over all positions", "anchors": ["experiments/utils/return_combination.py:ReturnCombinator._get_scales"]}
{"id": "C49", "title": "Covariance packing round trip", "statement": "from_row_to_covariance turns any vector of n(n+1)/2 numbers into the symmetric matrix whose upper triangle read row by row is that vector, and inverts the packing of symmetric matrices.", "quantifier": "every n and every vector", "why_tests_cant": "all sizes", "anchors": ["experiments/utils/experiment_utils.py:from_row_to_covariance"]}
{"id": "C50", "title": "add_to_diagonal mutates and compounds", "statement": "add_to_diagonal multiplies each diagonal by (1+lamda) and leaves off-diagonals alone, for every entry of the dictionary it is given, in place: the caller's dictionary is changed and k calls compound to (1+lamda)^k; a semidefinite matrix with positive diagonal becomes positive definite for lamda>0.", "quantifier": "every dictionary, lamda, number of calls", "why_tests_cant": "all histories", "anchors": ["experiments/utils/experiment_utils.py:add_to_diagonal"]}
{"id": "C51", "title": "Log-likelihood consistency", "statement": "log_likelihood is the Gaussian log density, agrees row by row with _single_log_likelihood, and rescaling data by `scale` shifts it by -n*log(scale); log_likelihood_sequential returns None whatever its input.", "quantifier": "every data set and scale>0", "why_tests_cant": "continuum", "anchors": ["experiments/utils/experiment_utils.py:log_likelihood", "experiments/utils/experiment_utils.py:_single_log_likelihood", "experiments/utils/experiment_utils.py:log_likelihood_sequential"]}
{"id": "C52", "title": "CCP factor parametrisation round trip", "statement": "The (e,G) parametrisation built by _State satisfies diag(e) - G G^T = (F F^T + diag(d))^-1 and build() applied to it returns factors of the same covariance, with the same d.", "quantifier": "every F and positive d", "why_tests_cant": "continuum", "anchors": ["experiments/utils/ccp_regularize.py:_State"]}
{"id": "C53", "title": "Positive/negative feature split", "statement": "feature_engineer returns, side by side, the positive and negative parts of each prediction: they sum to the original entry, have opposite signs and at most one is non-zero.", "quantifier": "every frame", "why_tests_cant": "all values", "anchors": ["experiments/utils/return_combination.py:feature_engineer"]}
{"id": "C54", "title": "Results table labels", "statement": "_create_table_helper labels the prescient row with the name of the last entry of the metrics dictionary, not PRESCIENT, whenever that entry is not last.", "quantifier": "every dictionary of metrics", "why_tests_cant": "all orders", "anchors": ["experiments/utils/portfolio_backtests.py:_create_table_helper"]}
{"id": "C55", "title": "IEWMA items are labelled like the input", "statement": "Every item yielded by iterated_ewma has a mean and a volatility with exactly one entry per column of `returns`, and a square covariance frame whose row and column labels are exactly the columns of `returns`, in the same order.", "quantifier": "every well-formed frame of returns and every parameter setting, every arithmetic", "why_tests_cant": "must hold for every frame shape, NaN pattern, clipping and mean option", "anchors": ["cvx/covariance/ewma.py: iterated_ewma, _ewma_cov, _generator2frame"]}
{"id": "C56", "title": "A healthy combination completes", "statement": "If all experts share their times and issue positive definite covariances, returns are known at all forecast times but the first, there are at least two forecast times, the requested times are a stretch of them, and the quadratic term of every requested window is positive definite, then construction and solve() complete without an exception and yield one entry per window, whatever feasible weights the optimiser returns.", "quantifier": "every number of assets, experts and times, all data meeting the conditions, every optimiser returning simplex points or failing", "why_tests_cant": "ranges over all inputs and optimiser behaviours", "anchors": ["cvx/covariance/combination.py: from_sigmas, _CovarianceCombination.solve, _solve"]}
{"id": "C57", "title": "Regularisation keeps the principal factors", "statement": "The r factors in F of regularize_covariance(low_rank_format=True) are eigen-directions of the correlation matrix, mutually orthogonal, in descending order of explained variance; and no other r factors G with S - G G^T positive semidefinite explain a larger total share of the asset variances.", "quantifier": "every positive semidefinite input with positive variances, every rank, every competing set of factors", "why_tests_cant": "optimality over all competing factor matrices", "anchors": ["cvx/covariance/regularization.py:_regularize_correlation", "cvx/covariance/regularization.py:regularize_covariance"]}
{"id": "C58", "title": "Regularisation stops at the first bad matrix", "statement": "regularize_covariance yields, in order, every date before the first matrix with a NaN or a non-positive variance and then raises ValueError; it raises at once if r is not between 1 and n; otherwise it yields every date.", "quantifier": "every dictionary of symmetric matrices, every r", "why_tests_cant": "every position of the bad matrix in every history", "anchors": ["cvx/covariance/regularization.py:regularize_covariance"]}
{"id": "C59", "title": "EM stops exactly at the likelihood equations", "statement": "em_regularize_covariance returns its starting point unchanged if and only if it solves the likelihood equations Sigma V^-1 F = F and diag V = diag Sigma, V = F F^T + diag d.", "quantifier": "every positive definite covariance, every start with positive d", "why_tests_cant": "equivalence over a continuum", "anchors": ["cvx/covariance/regularization.py:_em_low_rank_approximation"]}
{"id": "C60", "title": "EM needs a start for every date", "statement": "em_regularize_covariance raises KeyError at the first date that has no initial factor model, after yielding all dates before.", "quantifier": "every dictionary, every position of the gap", "why_tests_cant": "every history", "anchors": ["cvx/covariance/regularization.py:em_regularize_covariance"]}
{"id": "C61", "title": "Every number of an item in closed form", "statement": "Each item of iterated_ewma carries exactly: volatility = square root of the winsorised EWMA of squared centred returns with vola_halflife; mean = EWMA of returns with mu_halflife1 plus volatility times the EWMA of standardised returns with mu_halflife2; covariance(p,q) = vola_p vola_q times the correlation of the EWMA second moments (cov_halflife) of the standardised, limited, recentred returns, NaN where such a second moment is zero. Rows after the volatility warm-up in which no asset has a volatility or a centred return other than 0 are skipped.", "quantifier": "every frame of finite returns, every parameter setting, every item and pair of assets", "why_tests_cant": "all lengths, data and parameters", "anchors": ["cvx/covariance/ewma.py:iterated_ewma"]}
{"id": "C62", "title": "Forecasts are scored on the next row", "statement": "log_likelihood_low_rank and log_likelihood_regularized score the forecast issued at a row with the Gaussian log density of the next row of returns, skip the last row, keep the order of the forecasts, and treat missing data by looking at the first asset only (a gap in another asset yields NaN, a gap in the first asset drops the date).", "quantifier": "every frame of returns with distinct time stamps, every dictionary of forecasts, with or without means", "why_tests_cant": "all data sets, gap patterns and schedules", "anchors": ["experiments/utils/experiment_utils.py:log_likelihood_low_rank", "experiments/utils/experiment_utils.py:log_likelihood_regularized"]}
{"id": "C63", "title": "Turnover is relative and scale free", "statement": "turnover is 252*100 times the average over days of |w_{t+1}-w_t|_1/|w_t|_1 (relative to the old position, unlike its docstring), does not change when all weights are multiplied by a nonzero constant, and is zero only if the weights never change.", "quantifier": "every sequence of at least two nonzero weight vectors", "why_tests_cant": "continuum of weight histories", "anchors": ["experiments/utils/experiment_utils.py:turnover"]}
{"id": "C64", "title": "ecdf is the empirical distribution function", "statement": "ecdf returns the data in ascending order with heights i/n; without ties the i-th height is the fraction of the data not above the i-th point, with ties it is never more.", "quantifier": "every data set", "why_tests_cant": "continuum, ties", "anchors": ["experiments/utils/experiment_utils.py:ecdf"]}
{"id": "C65", "title": "MSE loss is measured on the next row", "statement": "MSE reports for every forecast the squared Frobenius distance to the outer product of the next row of returns, NaN when that row is missing or incomplete; a forecast for an unknown time raises KeyError.", "quantifier": "every frame of returns with distinct time stamps and every dictionary of forecasts", "why_tests_cant": "all data sets and schedules", "anchors": ["experiments/utils/experiment_utils.py:MSE"]}
{"id": "C66", "title": "Realised covariance and realised volatility disagree by the mean", "statement": "The realised covariance of a day is a positive semidefinite matrix, the sum of outer products minus T times the outer product of the intraday mean; the squared realised volatility exceeds its diagonal by exactly T times the squared mean.", "quantifier": "every non-empty set of intraday returns", "why_tests_cant": "continuum", "anchors": ["experiments/utils/experiment_utils.py:_realized_covariance", "experiments/utils/experiment_utils.py:realized_volas"]}
{"id": "C67", "title": "Limiting realised covariances runs away", "statement": "With clip_at = c >= 1 in iterated_ewma_vec.ewma, once an averaged entry is negative after the first min_periods steps it can only grow more negative, geometrically for c > 1, and the later data are ignored; for two exactly opposite assets the forecasts stop being positive semidefinite at the first limited step.", "quantifier": "every half-life, limit, min_periods, history and length", "why_tests_cant": "all histories and lengths", "anchors": ["experiments/utils/iterated_ewma_vec.py:ewma", "experiments/utils/iterated_ewma_vec.py:_get_next_ewma"]}
{"id": "C68", "title": "Vectorised iterated_ewma always raises TypeError", "statement": "iterated_ewma_vec.iterated_ewma raises TypeError for every argument list: ewma is a generator function, and the square root (or the centring) is taken of the generator object.", "quantifier": "all arguments", "why_tests_cant": "all arguments", "anchors": ["experiments/utils/iterated_ewma_vec.py:iterated_ewma"]}
{"id": "C69", "title": "Minimum-risk backtest is optimal day by day", "statement": "backtest(portfolio_type='min_risk') returns for every day the unique fully invested portfolio within the limits whose predicted volatility under that day's covariance is smallest, and that volatility as objective; it returns None rows exactly when the constraints cannot be met; it raises SolverError only if the solver does.", "quantifier": "every trader, covariance sequence, limits and constraint list state", "why_tests_cant": "continuum of portfolios and all histories", "anchors": ["experiments/utils/trading_model.py:Trader.backtest", "experiments/utils/trading_model.py:Trader.solve_min_risk", "experiments/utils/trading_model.py:_get_L_inv"]}
{"id": "C70", "title": "Mean-variance backtest is optimal day by day", "statement": "backtest('mean_variance') maximises predicted return minus the uncertainty penalty rho'|w| over weights and cash that sum to one, have annual volatility at most sigma_des*adjust_factor and respect the limits; if the limits are feasible on some days only it raises ValueError.", "quantifier": "every trader, forecasts, penalties and limits", "why_tests_cant": "continuum", "anchors": ["experiments/utils/trading_model.py:Trader.backtest", "experiments/utils/trading_model.py:Trader.solve_mean_variance"]}
{"id": "C71", "title": "Maximum diversification", "statement": "backtest('max_diverse') returns long-only fully invested weights of at most upper_bound with the largest diversification ratio among those; it ignores and does not extend the constraint list; TypeError exactly if no such portfolio exists.", "quantifier": "every trader and cap", "why_tests_cant": "continuum", "anchors": ["experiments/utils/trading_model.py:Trader.backtest", "experiments/utils/trading_model.py:Trader.solve_max_diverse"]}
{"id": "C72", "title": "Risk parity", "statement": "backtest('risk_parity') returns the unique long-only fully invested portfolio in which every asset contributes the same share of the variance.", "quantifier": "every trader", "why_tests_cant": "continuum, uniqueness", "anchors": ["experiments/utils/trading_model.py:Trader.backtest", "experiments/utils/trading_model.py:Trader.solve_risk_parity"]}
{"id": "C73", "title": "Options that cannot work", "statement": "backtest('vol_cont') always raises, and leaves the trader marked as diluted so that diluted metrics raise AttributeError whatever is called later; C_speedup raises NameError; max_sharpe raises AttributeError; giving rhos to the constructor never yields a trader.", "quantifier": "every input and history", "why_tests_cant": "all inputs", "anchors": ["experiments/utils/trading_model.py:Trader.backtest", "experiments/utils/trading_model.py:Trader.__init__", "experiments/utils/trading_model.py:Trader.get_metrics"]}
{"id": "C74", "title": "Reported metrics", "statement": "get_metrics reports 252*mean and sqrt(252)*std of the returns divided by adjust_factor, their ratio and the maximum drawdown of the compounded returns; with excess=True the mean is of adjusted returns minus the risk-free rate while the risk is of the unadjusted returns. Daily returns are weights times asset returns plus cash at the risk-free rate.", "quantifier": "every trader state and arguments", "why_tests_cant": "all inputs", "anchors": ["experiments/utils/trading_model.py:Trader.get_metrics", "experiments/utils/trading_model.py:Trader.get_total_returns"]}
{"id": "C75", "title": "Trader construction", "statement": "For aligned data and positive definite forecasts the constructor succeeds; a forecast that is symmetric but not positive definite raises LinAlgError; returns, forecasts and derived data never change afterwards.", "quantifier": "every data set and every later history of calls", "why_tests_cant": "all histories", "anchors": ["experiments/utils/trading_model.py:Trader.__init__"]}
{"id": "C76", "title": "CCP objective is the likelihood", "statement": "objective() of a state built from F and d equals -2 times the Gaussian log-likelihood of the model FF^T+diag(d) for second moments Sigma, and is never below log det Sigma + n.", "quantifier": "every positive definite Sigma, every F, every positive d, and every later valid state", "why_tests_cant": "continuum of matrices", "anchors": ["experiments/utils/ccp_regularize.py:_State.objective"]}
{"id": "C77", "title": "CCP iterations descend", "statement": "Each iterate() whose solver call returns a minimiser gives valid parameters and does not increase objective(); it stays equal only if G does not move; after any number of iterations build() returns positive d and a model at least as likely as the initial one.", "quantifier": "every Sigma, starting model, honest solver and number of iterations", "why_tests_cant": "unbounded number of iterations, continuum", "anchors": ["experiments/utils/ccp_regularize.py:_State.iterate", "experiments/utils/ccp_regularize.py:_State.construct_problem", "experiments/utils/ccp_regularize.py:_State.build"]}
{"id": "C78", "title": "Proximal gradient's gradients", "statement": "The hand-written gradients of _solve_proximal_gradient support the surrogate problem's objective from below at every feasible point; an update leaves a feasible point unchanged exactly if it is the minimiser, which is unique.", "quantifier": "every Sigma, Gk and pair of feasible points", "why_tests_cant": "continuum", "anchors": ["experiments/utils/ccp_regularize.py:_common_factor", "experiments/utils/ccp_regularize.py:_grad_G", "experiments/utils/ccp_regularize.py:_grad_e", "experiments/utils/ccp_regularize.py:_solve_proximal_gradient"]}
{"id": "C79", "title": "CCP fixed points", "statement": "With a solver that returns minimisers, iterate() keeps the parameters exactly if the model solves the likelihood equations (Sigma V^-1 F = F and diag V = diag Sigma); in particular when Sigma is itself the model.", "quantifier": "every Sigma, F, d and solver", "why_tests_cant": "continuum", "anchors": ["experiments/utils/ccp_regularize.py:_State.iterate"]}
{"id": "C80", "title": "CCP iterate outcomes", "statement": "iterate() raises AttributeError if construct_problem was not called or the solver has no solution, SolverError if the solver fails, LinAlgError if Sigma is not positive definite although the problem was solved, and otherwise stores the solution.", "quantifier": "every state and solver answer", "why_tests_cant": "every solver behaviour", "anchors": ["experiments/utils/ccp_regularize.py:_State.iterate"]}
{"id": "C81", "title": "Proximal variant has no safeguard", "statement": "There is valid input (positive definite Sigma, positive d) for which _State2.iterate() completes without an exception and build() returns negative idiosyncratic variances.", "quantifier": "existence", "why_tests_cant": "found only by looking at the iteration map", "anchors": ["experiments/utils/ccp_regularize.py:_State2"]}
{"id": "C82", "title": "A backtest needs a forecast of every predictor for every traded date", "statement": "If one predictor has no forecast for one traded date, backtest returns no result for any predictor.", "quantifier": "every strategy, list of predictors, position and date", "why_tests_cant": "all positions of the gap", "anchors": ["experiments/utils/portfolio_backtests.py:_get_causal"]}
{"id": "C83", "title": "Minimum-risk backtest over several predictors", "statement": "MinRisk.backtest returns one trader per name, in order; the trader of predictor i works on the traded dates and holds at every t the portfolio of least volatility under the forecast that predictor i issued at t, within the limits; constraints left behind by earlier predictors do not disturb later ones.", "quantifier": "every set of predictors with positive definite forecasts, every feasible limits, any number of earlier consistent backtests in the process", "why_tests_cant": "all data and histories; shared mutable default argument", "anchors": ["experiments/utils/portfolio_backtests.py:MinRisk.backtest"]}
{"id": "C84", "title": "No look-ahead in backtests", "statement": "The weights held at t by a minimum-risk, equal-weight, risk-parity or maximum-diversification backtest depend on nothing but the forecast issued at t and the limits: two backtests on different returns, windows, predictors, and in different processes hold the same weights at t if their forecasts at t agree.", "quantifier": "all pairs of backtests", "why_tests_cant": "relational property over all pairs", "anchors": ["experiments/utils/portfolio_backtests.py:MinRisk.backtest", "experiments/utils/portfolio_backtests.py:EqWeighted.backtest", "experiments/utils/portfolio_backtests.py:RiskParity.backtest", "experiments/utils/portfolio_backtests.py:MaxDiverse.backtest"]}
{"id": "C85", "title": "The other strategies over several predictors", "statement": "EqWeighted, MaxDiverse, RiskParity and MeanVariance backtests return one trader per name with, at every traded date, the equal weights, the most diversified capped long-only portfolio, the risk-parity portfolio, and the maximiser of predicted return less penalty under the risk limit with the mean forecast of the same predictor and date.", "quantifier": "every set of predictors with positive definite forecasts (and mean forecasts)", "why_tests_cant": "all data", "anchors": ["experiments/utils/portfolio_backtests.py:RiskParity.backtest"]}
{"id": "C86", "title": "Window of a backtest comes from the last predictor", "statement": "The constructor accepts iff all forecast dates of all predictors are dates of the frame, the mean forecasts cover the dates of the last predictor and a given start or end is a date of the last predictor; missing ones default to first and last date of the last predictor. Without predictors: UnboundLocalError.", "quantifier": "all arguments", "why_tests_cant": "all orders and sets of dates", "anchors": ["experiments/utils/portfolio_backtests.py:PortfolioBacktest.__init__"]}
{"id": "C87", "title": "Results table", "statement": "create_table evaluates each trader once, in dictionary order, diluted to sigma_tar if that is given and non-zero and as traded otherwise, and prints 100 times return, risk and drawdown (and the Sharpe ratio as it is) of each trader not called PRESCIENT; asked for the prescient line it ends normally exactly if there is a trader of that name.", "quantifier": "all traders", "why_tests_cant": "all orders", "anchors": ["experiments/utils/portfolio_backtests.py:create_table"]}
{"id": "C88", "title": "Backtest returns are next-day returns", "statement": "For the strategies without cash, the realised return at position t of a backtest is the inner product of the weights chosen at t with the return of the next date of the frame.", "quantifier": "all backtests, dates and frames", "why_tests_cant": "an off-by-one here is look-ahead; all positions", "anchors": ["experiments/utils/portfolio_backtests.py:_get_causal"]}
{"id": "C89", "title": "Return combination does not depend on units", "statement": "Multiplying each column of each predictor by any non-zero factor leaves all forecasts of ReturnCombinator.fit unchanged and divides the weights by the factor; whether and what fit raises does not change.", "quantifier": "every data set, every non-zero factors", "why_tests_cant": "all inputs and factors, exact identity", "anchors": ["experiments/utils/return_combination.py:ReturnCombinator.fit", "experiments/utils/return_combination.py:ReturnCombinator._get_scales"]}
{"id": "C90", "title": "Return combination is linear in the returns", "statement": "Weights and forecasts of ReturnCombinator.fit are linear in the returns; whether and what it raises does not depend on the values of the returns.", "quantifier": "every data set and every two return frames of the same shape", "why_tests_cant": "all pairs of inputs", "anchors": ["experiments/utils/return_combination.py:ReturnCombinator.fit"]}
{"id": "C91", "title": "EWMA return predictors", "statement": "ewma_predictors gives for date t and half-life h the weighted mean of the returns observed strictly before t, weights halving every h rows (missing values skipped, their row counted); NaN if nothing was observed; the value lies between the smallest and largest past return. A half-life <= 0 raises ValueError.", "quantifier": "every series with gaps, every list of half-lives", "why_tests_cant": "all series and positions", "anchors": ["experiments/utils/return_combination.py:ewma_predictors"]}
{"id": "C92", "title": "Daily return predictors", "statement": "daily_predictors puts in row t the return of row t - lag, NaN outside the frame; so a lag <= 0 predicts a return with itself or with a later one.", "quantifier": "every series, every lags of either sign", "why_tests_cant": "all positions and lags", "anchors": ["experiments/utils/return_combination.py:daily_predictors"]}
{"id": "C93", "title": "Lasso return combination", "statement": "ReturnCombinatorOld.fit, given a solver whose solutions are optimal, returns weights that minimise squared error plus alpha times the 1-norm over the memory days before each date; without a solution the row is NaN and the forecast 0. If alpha exceeds twice the largest correlation of returns and predictions, all weights are zero. A solution exists for every alpha >= 0 (collinear predictors, fewer days than predictors included); all solutions make the same forecasts on the days they are fitted to and, for alpha > 0, have the same 1-norm.", "quantifier": "every data set, every such solver", "why_tests_cant": "continuum, all positions, any solver", "anchors": ["experiments/utils/return_combination.py:ReturnCombinatorOld", "experiments/utils/return_combination.py:_combinator_problem"]}
{"id": "C94", "title": "Tuning alpha", "statement": "tune_alpha evaluates every alpha independently: its entry is the fit for this alpha alone, the root mean square error and Pearson correlation (NaN if constant) over all dates and assets; correlations lie in [-1, 1].", "quantifier": "every data set and list of alphas", "why_tests_cant": "all inputs", "anchors": ["experiments/utils/return_combination.py:tune_alpha"]}
{"id": "C95", "title": "Function and class versions of the lasso combination agree", "statement": "ewma_return_combination returns a result exactly if ReturnCombinatorOld.fit returns the same one with a solution on every date; if a date has no solution the former raises AttributeError where the latter continues. With a solver that finds a solution whenever there is one, ewma_return_combination returns for every alpha >= 0, and raises DCPError for every alpha < 0 if there is a date to forecast.", "quantifier": "every data set on one index, every solver", "why_tests_cant": "all inputs and solver behaviours", "anchors": ["experiments/utils/return_combination.py:ewma_return_combination", "experiments/utils/return_combination.py:ReturnCombinatorOld.fit"]}
{"id": "C96", "title": "Factor model without look-ahead", "statement": "The items of construct_cmiewma_factor_model for dates up to row L depend only on the first L rows: data sets that agree on them have the same items, and the run on the truncated data is the truncated run, wherever the cut falls within a block.", "quantifier": "every pair of data sets, every cut L", "why_tests_cant": "continuum of continuations of the data", "anchors": ["experiments/utils/factor_model.py:construct_cmiewma_factor_model"]}
{"id": "C97", "title": "Full covariance of the factor model", "statement": "from_factor_to_full_covariance returns one entry per item: exposures^T F exposures plus the diagonal; it is always positive semidefinite, and positive definite exactly if no non-zero portfolio has zero factor exposures and holds only assets without residuals so far.", "quantifier": "every run of the factor model", "why_tests_cant": "all matrices", "anchors": ["experiments/utils/factor_model.py:from_factor_to_full_covariance"]}
{"id": "C98", "title": "Failures of the factor model", "statement": "construct_cmiewma_factor_model raises ValueError for update_frequency 0, emits nothing if there are at most `memory` rows, raises IndexError before the first item if memory < 10 or if the factor returns of the first block never move, passes on an exception of pca, emits nothing if the solver never succeeds; any exception stems from one block, and all earlier blocks have been emitted.", "quantifier": "every data set and solver behaviour", "why_tests_cant": "all failure points", "anchors": ["experiments/utils/factor_model.py:construct_cmiewma_factor_model"]}
{"id": "C99", "title": "Factor log-likelihood", "statement": "factor_log_likelihood scores each item with the Gaussian log-density (mean zero, full covariance) of the return of the following row, NaN for the last row; KeyError for an unknown date, LinAlgError for a singular covariance.", "quantifier": "every data set and list of items", "why_tests_cant": "continuum of inputs", "anchors": ["experiments/utils/factor_model.py:factor_log_likelihood"]}
{"id": "C100", "title": "Low-rank IEWMA agrees with IEWMA", "statement": "With the same parameters, the p-th item of low_rank_iterated_ewma has the time, mean and volatility of the p-th item of iterated_ewma; its covariance F F^T + diag(d) has exactly the same variances, differs from the full covariance by a positive semidefinite remainder off the diagonal, equals it while there are no more rows than factors, and is NaN only if the full covariance has a NaN variance; no item is skipped, and the run finishes when no standardised return is zero and the rank is below the number of assets.", "quantifier": "every finite return frame in which every asset moves before the first volatility, parameters, rank and eigen-solver meeting its contract", "why_tests_cant": "universal over data, histories and ranks", "anchors": ["experiments/utils/low_rank_ewma.py:low_rank_iterated_ewma", "cvx/covariance/ewma.py:iterated_ewma"]}
{"id": "C101", "title": "Low-rank IEWMA does not look ahead", "statement": "Running low_rank_iterated_ewma on the first m rows yields exactly the items of the full run for those rows; an error in the shortened run occurs at the same place in the full run.", "quantifier": "every finite return frame, prefix length, parameters, rank, eigen-solver", "why_tests_cant": "all histories and all cut points", "anchors": ["experiments/utils/low_rank_ewma.py:low_rank_iterated_ewma", "experiments/utils/low_rank_ewma.py:_general_low_rank"]}
{"id": "C102", "title": "The EM log-likelihood helper scores every covariance through a factor model that fits at least as well as the regularised one", "statement": "em_low_rank_log_likelihood(returns, Sigmas, rank) gives, for every covariance dated at a row that has a next row (and for no other), the log-density of the next row under N(0, V), where V = F F^T + diag(d) has `rank` factors and positive d, and the Gaussian log-likelihood of V for that covariance is at least that of the rank-`rank` regularised covariance it starts from. If regularize_covariance raises, the call raises the same.", "quantifier": "every number of assets, frame of finite returns with distinct dates, list of positive definite covariances at distinct dates of the frame, rank for which the regularised idiosyncratic variances are positive, and every correct symmetric eigen-solver", "why_tests_cant": "The inequality is between log-likelihoods for all positive definite matrices and all eigen-solvers; tests compare a few matrices.", "anchors": ["experiments/utils/experiment_utils.py: em_low_rank_log_likelihood, log_likelihood_low_rank", "cvx/covariance/regularization.py: regularize_covariance, em_regularize_covariance"]}
{"id": "C103", "title": "construct_rho is the past weighted volatility, without look-ahead", "statement": "construct_rho(returns, n_devs): row t holds for every asset n_devs times the bias-corrected exponentially weighted standard deviation (weights halve every 125 rows, missing returns are skipped but age the others) of the returns observed before row t, and 0 while fewer than two are observed; so the first two rows are zero. It depends on the rows before t only, is non-negative for n_devs >= 0, is unchanged by adding a constant to all returns, scales with the returns, and is zero for constant returns. An empty frame raises IndexError.", "quantifier": "every frame (any pattern of missing values), every n_devs, every row", "why_tests_cant": "The recursion of pandas must agree with the closed form at every length and every pattern of missing values.", "anchors": ["experiments/utils/trading_model.py: construct_rho"]}
{"id": "C104", "title": "yearly_SR reports one annualised Sharpe ratio per full year", "statement": "yearly_SR(trader, plot=False) has exactly the years from the first to the last year that has more than 100 returns; each such year gets sqrt(252) mean/std (sample standard deviation), an infinite value or NaN if its returns do not vary, and a year in between with 100 or fewer returns gets NaN. With no such year the result is empty. The order of the days and a positive leverage of all returns do not change the result.", "quantifier": "every series of dated returns", "why_tests_cant": "Ranges over all series, in particular over years with gaps and all lengths around the limit of 100.", "anchors": ["experiments/utils/experiment_utils.py: yearly_SR"]}
{"id": "C105", "title": "The stand-alone helpers of iterated_ewma_vec are right", "statement": "_regularize_correlation(R, r) keeps every diagonal, keeps positive semidefiniteness, returns R for r >= n, its diagonal for r = 0, counts a negative r from n, equals the approximation of the library's regularization for 1 <= r <= n, raises ValueError for an empty stack and LinAlgError if the eigen-solver fails. _refactor_to_corr returns positive semidefinite matrices with unit diagonal and entries in [-1, 1]. _get_realized_covs returns the outer products of the rows (rank at most one, positive semidefinite), whose diagonals are _get_realized_vars.", "quantifier": "every number of assets and days, every rank (including 0, negative and too large), every correct eigen-solver, every positive semidefinite input with positive variances", "why_tests_cant": "All sizes, all ranks and all matrices; eigenvectors are not unique.", "anchors": ["experiments/utils/iterated_ewma_vec.py: _get_realized_covs, _get_realized_vars, _refactor_to_corr, _regularize_correlation"]}
{"id": "C106", "title": "L1 smoothing of covariances tracks within lambda and moves only when needed", "statement": "L1_smoothing(Sigmas, lamda0) returns one matrix per date, starting with the first forecast itself. On every later date it keeps the previous smoothed matrix if that is within lamda0 (Frobenius norm) of today's forecast (update flag 0), and otherwise moves it to the point at distance exactly lamda0 from today's forecast (flag 1). This is the unique minimiser over all matrices of 1/2|M - today|^2 + lamda0 |M - yesterday|, whatever optimiser is used. Hence the smoothed series never is further than lamda0 from the forecast, never moves further in a day than the forecast does, stays positive (semi)definite, uses no later forecast, rescales with the data only if lamda0 is rescaled too, is the input for lamda0 = 0 and constant for a large lamda0. It fails only without data, or on a date where an update is due and a matrix is not accepted as PSD, lamda0 is negative or the optimiser fails.", "quantifier": "every dictionary of forecasts of any length and dimension, every lamda0, every optimiser that returns minimisers", "why_tests_cant": "quantifies over all histories of matrices and all optimisers; the step-by-step bound is an induction over time", "anchors": ["experiments/extensions/smoothing.ipynb: get_next, L1_smoothing"]}
{"id": "C107", "title": "frob_difference is the relative daily change", "statement": "frob_difference(Sigmas) returns one value per date but the first: the Frobenius distance to the previous matrix relative to the norm of the previous matrix (undefined if that is zero). It does not depend on units, and on an L1-smoothed series it is zero exactly on the dates without an update.", "quantifier": "every non-empty dictionary of matrices, every non-zero rescaling, every smoothed series", "why_tests_cant": "a statement about all series and all scales; the link with the update flags needs the optimality of the smoothing step", "anchors": ["experiments/extensions/smoothing.ipynb: frob_difference, L1_smoothing"]}
{"id": "C108", "title": "Tuned return forecasts are each day's forecasts moved into the interval between two of that day's quantiles", "statement": "tune_returns(returns, lower, upper) gives a table of the same shape in which each day's entries are replaced by the nearest point of the interval between that day's lower and upper quantile (linear interpolation over the assets that have a value, ends swapped if they come in the wrong order); a NaN stays NaN and a day without values is unchanged. Levels outside [0,1] raise ValueError, levels inside never fail. The ranking of the assets within a day is kept; fewer than lower*(n-1)+1 entries are raised and fewer than (1-upper)*(n-1)+1 lowered; rescaling and shifting the forecasts rescales and shifts the result, negating them mirrors it, the order of the assets does not matter, levels 0 and 1 change nothing, and the first k days depend on the first k days only.", "quantifier": "every table of forecasts with missing entries, every pair of levels", "why_tests_cant": "clipping at quantiles depends on ties, missing entries and the fractional position of the quantile; samples settle none of them", "anchors": ["experiments/industry_portfolios.ipynb:tune_returns"]}
{"id": "C109", "title": "The three-valued signal of tune_returns2 marks the tails of each day's forecasts", "statement": "tune_returns2(returns) gives 1 to the entries strictly above the day's 90% quantile, -1 to the ones strictly below the 10% quantile, 0 to all others and to missing ones; it never fails. At most (n-1)/10+1 assets get each sign (strictly less), and at least (n-1)/10 when the n values differ; so it is a tenth on each side and not the five percent of the docstring. The sign of a forecast is not looked at: the largest of two or more different values always becomes 1 and the smallest -1. Rescaling and shifting the forecasts changes nothing; negating them negates the signal.", "quantifier": "every table of forecasts with missing entries", "why_tests_cant": "the counts are bounds over every number of assets and every pattern of ties", "anchors": ["experiments/extensions/nonzero_means.ipynb:tune_returns2"]}
{"id": "C110", "title": "The sign prediction keeps the ten largest positive and ten smallest negative forecasts", "statement": "get_sign_prediction(returns) fails with ValueError if a day has fewer than 10 assets and otherwise gives a table of the same shape with values in {-1,0,1}. With at least 20 assets and forecasts below 1 in absolute value, an entry is 1 exactly when it is among the ten largest and positive (a NaN counts as largest and takes up a place), -1 exactly when it is among the ten smallest and negative, up to the tie-breaking of the sort; the number of ones is min(10 - missing, positive), of minus ones min(10, negative). With fewer than 20 assets at most n-10 entries get each sign (none with ten). If all forecasts of a day exceed 1 (percent instead of fractions), the day has no signal at all.", "quantifier": "every table of forecasts, every sort algorithm that np.argsort may use", "why_tests_cant": "the sort is unspecified on ties and the failure needs particular sizes of the forecasts that no sample table has", "anchors": ["experiments/industry_portfolios.ipynb:get_sign_prediction"]}
{"id": "C111", "title": "The moving autocorrelation is an EWMA of the product over the root of the EWMAs of the squares and may exceed one", "statement": "get_moving_autocorrelations(returns, y, halflife) gives for each day rho with rho * sqrt(EWMA of x^2) * sqrt(EWMA of y^2) = EWMA of x*y, each EWMA over the days seen that have a value. Without missing values -1 <= rho <= 1; in general |rho| <= sqrt(W_x W_y)/W_xy with the weights of the days that have values; used with y = the returns of the day before, whose first entry is missing, the bound is sqrt(1 + w^t/(1+..+w^(t-1))) and the values do exceed 1 for every half-life. It is NaN only if no product was seen or one of the series was zero so far. The first k days depend on the first k days only; rescaling the series changes at most the sign; a half-life that is not positive raises ValueError.", "quantifier": "every pair of series with missing entries, every half-life", "why_tests_cant": "the bound is a Cauchy-Schwarz inequality over every history; the exceedance needs the missing first entry", "anchors": ["experiments/industry_portfolios.ipynb:get_moving_autocorrelations"]}
{"id": "C112", "title": "The generative EWMA yields the dated estimates of the days seen so far, then the numbered samples", "statement": "_ewma_cov(data, halflife, min_periods, n_samples, genarative_data) yields, in the order of the rows, the exponentially weighted second moments of the rows up to that day (a pair of assets is NaN for good after its first missing return; a day whose estimate is all NaN is skipped), then the samples numbered 0, 1, .... Without missing returns there is one estimate per day, symmetric and positive semidefinite. halflife 0 is a TypeError, an empty frame an IndexError, and every min_periods from 2 on a ValueError before anything is yielded.", "quantifier": "every frame with missing entries, every half-life, min_periods, number of samples and sampler", "why_tests_cant": "the estimates follow from a recursion over a history of any length; min_periods is never passed in the notebook", "anchors": ["experiments/extensions/generative_mode.ipynb:_ewma_cov", "experiments/extensions/generative_mode.ipynb:_general"]}
{"id": "C113", "title": "Generated returns are drawn with the EWMA of everything fed back so far", "statement": "Sample k is drawn with the exponentially weighted second moments of the data followed by the k rows fed back so far: the earlier samples, or the first k rows of genarative_data. Sample k does not depend on later rows; asking for more samples only appends. Without missing returns all n_samples are produced, without missing values (with genarative_data, as many as it has rows, then an IndexError). A single missing return in the data makes sampling fail with LinAlgError. A portfolio that earned exactly nothing on every day of the data earns nothing on every generated day: the samples stay in the span of the data.", "quantifier": "every frame, half-life, number of samples, fed-back data and every sequence of random draws", "why_tests_cant": "it must hold for every outcome of the random generator and every number of samples", "anchors": ["experiments/extensions/generative_mode.ipynb:_ewma_cov", "experiments/extensions/generative_mode.ipynb:_general"]}
{"id": "C114", "title": "Prescient benchmark and one-step-ahead scores", "statement": "In the evaluation cells the PRESCIENT covariance of a day is the second moment of the returns of its calendar quarter plus their centred second moment over N-1 (NaN exactly when the quarter has one day), the same on all days of the quarter, positive semidefinite, and positive definite exactly when the quarter's returns span all portfolios, so never with fewer days than assets. Each prediction is scored by the Gaussian log-density of the return of the predictor's next date, so the first day of a quarter is scored with the previous quarter's matrix; an empty predictor raises ValueError, an unknown date KeyError, a singular scored prediction LinAlgError, hence a short quarter stops the cell.", "quantifier": "every number of assets, every history of dated returns and every predictor", "why_tests_cant": "needs every calendar layout and every return history; the notebooks only run one data set", "anchors": ["experiments/industry_portfolios.ipynb", "experiments/stock_portfolios.ipynb", "experiments/factor_portfolios.ipynb", "experiments/extensions/realized_covariance.ipynb", "experiments/utils/experiment_utils.py:log_likelihood"]}
{"id": "C115", "title": "PRESCIENT is not an upper bound; the second moment of the scored days is", "statement": "Among all positive definite constant covariances the second moment of the days scored has the strictly highest total log-likelihood on them. The PRESCIENT matrix is therefore beaten on its own quarter by the plain second moment unless all returns of the quarter are equal, and over a stretch predicted by one matrix the regrets of the scored days' second moment sum to at most zero, to less unless the two matrices coincide: regrets can be negative.", "quantifier": "every number of assets, every return history, every competing covariance", "why_tests_cant": "an optimality claim over all matrices cannot be tested by examples", "anchors": ["experiments/industry_portfolios.ipynb", "experiments/utils/experiment_utils.py:log_likelihood"]}
{"id": "C116", "title": "Scores and regrets under a change of assets or units", "statement": "Multiplying all returns by an invertible matrix A and all predictions S to A S A' lowers every score by ln|det A|, leaves every regret unchanged, and the PRESCIENT matrices move along by the same rule.", "quantifier": "every invertible A, every return history and every predictor", "why_tests_cant": "ranges over all invertible transformations and all histories", "anchors": ["experiments/industry_portfolios.ipynb", "experiments/utils/experiment_utils.py:log_likelihood"]}
{"id": "C117", "title": "An iterated-EWMA covariance is positive definite exactly when the rows seen span all assets", "statement": "For valid, finite (or NaN-filled) returns and valid half-lives, the covariance yielded as item i of iterated_ewma is free of NaN and positive definite if and only if every asset's volatility at that date is positive and no non-empty portfolio of the standardised, clipped and (optionally) centred returns vanishes on all rows used so far. In particular, an item that has seen fewer rows than there are assets (counting one row less with mean=True, whose first centred row is zero) is never positive definite, whatever the data.", "quantifier": "all parameter settings with positive half-lives, all valid return frames, all assets, all items", "why_tests_cant": "definiteness is a statement about all portfolios and depends on every row of the history; tests check a few sample matrices", "anchors": ["cvx/covariance/ewma.py:iterated_ewma", "cvx/covariance/ewma.py:_ewma_cov"]}
{"id": "C118", "title": "from_ewmas needs min_periods_cov at least the number of assets", "statement": "CovarianceCombination.from_ewmas on valid returns whose assets move during the warm-up: if every covariance of every expert is positive definite the object is built with one expert per label; if some expert with its own label has one NaN-free covariance that is not positive definite, LinAlgError is raised; consequently with min_periods_cov smaller than the number of assets (or equal to it, with mean=True) and NaN-free first covariances the call raises LinAlgError whatever the data and the half-life pairs, as soon as there is one forecast date.", "quantifier": "all return frames, half-life pairs, clip levels, min_periods, mean flags and numbers of assets", "why_tests_cant": "the failure depends on the relation between the number of assets and min_periods_cov for every data set; tests use one data set with enough warm-up", "anchors": ["src/cvx/covariance/combination.py:CovarianceCombination.from_ewmas", "src/cvx/covariance/combination.py:_cholesky_precision", "cvx/covariance/ewma.py:iterated_ewma"]}
{"id": "C119", "title": "Which re-expressions of the assets the combination respects", "statement": "Replacing the assets by portfolios, each a positive multiple of its own asset plus any combination of assets listed after it, leaves the weights unchanged and transforms the combined mean and covariance accordingly. Merely listing the same assets in another order does not have this property: there are healthy inputs for which every exact solver gives other weights and a covariance that is not the reordered one.", "quantifier": "every number of assets, every such change of assets, all inputs the combination completes on; every exact solver", "why_tests_cant": "the transformation ranges over a continuum; the negative part needs an optimum over all weights for every solver", "anchors": ["cvx/covariance/combination.py:from_sigmas", "cvx/covariance/combination.py:_CovarianceCombination.solve"]}
{"id": "C120", "title": "from_ewmas(...).solve(...) does not look ahead", "statement": "Take the whole pipeline: from_ewmas on a frame of returns, then solve with a window of w forecasts. Run it on all rows and on the first k rows. If the short frame suffices for more than w forecasts, the long run's results start with exactly the short run's results and all further results are for times after row k. If the short frame does not suffice to forecast at all, from_ewmas raises IndexError on it, and every result of the long run is for a later time. So no forecast depends on returns after its own date.", "quantifier": "every frame with increasing times, every cut k, every list of half-life pairs with distinct labels, all min_periods, clip levels, mean flags, windows, solvers (also stateful ones), any arithmetic", "why_tests_cant": "the two runs must be compared for every history and every cut; look-ahead bugs only show on particular data", "anchors": ["cvx/covariance/combination.py:from_ewmas", "cvx/covariance/combination.py:_CovarianceCombination.solve", "cvx/covariance/ewma.py:iterated_ewma"]}
{"id": "C121", "title": "When from_ewmas(...).solve(...) yields, and what", "statement": "For finite returns of assets that move during the warm-up and NaN-free expert covariances, with fp = (min_periods_vola - 1) + (min_periods_cov - 1) and T the number of rows minus fp: a run of solve(window) that completes had T at least 2 and yields T - w items where w is the window, limited to T - 1 (no window: T - 1); item j is for row fp + w + j of the frame of returns; its covariance is symmetric positive definite and its weights are non-negative, sum to one, one per label.", "quantifier": "all frames, half-life pairs, min_periods, clip levels, mean flags, windows and feasible solvers", "why_tests_cant": "an off-by-one in any of the three warm-ups shifts every date; tests check one configuration", "anchors": ["cvx/covariance/combination.py:from_ewmas", "cvx/covariance/combination.py:_CovarianceCombination.solve", "cvx/covariance/ewma.py:iterated_ewma"]}
{"id": "C122", "title": "Units of the returns through from_ewmas(...).solve(...)", "statement": "Multiplying the returns of each asset by its own positive constant (per cent instead of fractions) changes nothing but the units of the results: from_ewmas succeeds again, solve with any window and times completes again, with the same times and weights, means multiplied by the asset's constant, covariances by the product of both constants.", "quantifier": "all frames of finite returns, positive constants, half-life pairs, min_periods, clip levels, mean flags, windows, requested times and optimal solvers", "why_tests_cant": "equality of two runs for a continuum of scalings", "anchors": ["cvx/covariance/combination.py:from_ewmas", "cvx/covariance/combination.py:_CovarianceCombination.solve", "cvx/covariance/ewma.py:iterated_ewma"]}
{"id": "C123", "title": "The CM-IEWMA cell does not look ahead", "statement": "The cell of the experiment notebooks that computes CM-IEWMA (iterated EWMAs with the default settings, diagonal of the first expert's covariances inflated, from_sigmas, solve with a fixed window, dictionaries of covariances and weights by date) gives, on the first k rows of the returns, dictionaries that are the beginnings of the ones it gives on all rows; everything further is dated after row k. If the first k rows are too few it raises IndexError and everything in the long run is dated after them.", "quantifier": "every table of returns with increasing dates, every k, list of half-life pairs with distinct labels, warm-ups, window, solver, regularisation and arithmetic", "why_tests_cant": "A test compares two runs on one data set and one k.", "anchors": ["experiments/industry_portfolios.ipynb cell 11 (cm_iewma)", "experiments/experiment_utils.py:add_to_diagonal", "cvx/covariance/combination.py:from_sigmas", "cvx/covariance/ewma.py:iterated_ewma"]}
{"id": "C124", "title": "When the CM-IEWMA cell builds and what it returns", "statement": "In exact arithmetic: if every asset has a non-zero return between the end of the volatility warm-up and the first forecast and lamda > 0, the first (fast) expert never makes the cell fail, even if its covariances are singular (from_ewmas raises LinAlgError on the same expert); only the other experts must be positive definite. If the cell returns, both dictionaries are keyed by the dates after the two warm-ups and the window, in order; all covariances are positive definite and the weights are non-negative and sum to one. If the solver fails on one date the whole cell raises AttributeError.", "quantifier": "all finite returns, half-lives, warm-ups, windows, lamda > 0 and solvers that return feasible points", "why_tests_cant": "Singularity and dates depend on the number of assets and rows and on every past return.", "anchors": ["experiments/industry_portfolios.ipynb cell 11 (cm_iewma)", "experiments/experiment_utils.py:add_to_diagonal", "cvx/covariance/combination.py:from_sigmas"]}
{"id": "C125", "title": "Units of the returns in the CM-IEWMA cell", "statement": "Multiplying the returns of each asset by a positive constant of its own leaves the dates and the weights of the cell unchanged and multiplies each covariance by the two constants (or the second run raises AttributeError because its solver failed on a date).", "quantifier": "all finite returns active by the first forecast, all positive constants per asset, half-lives, warm-ups, windows, lamda, optimal solvers", "why_tests_cant": "Invariance under a continuum of scalings.", "anchors": ["experiments/industry_portfolios.ipynb cell 11 (cm_iewma)", "experiments/experiment_utils.py:add_to_diagonal"]}
{"id": "C126", "title": "The demo does not look ahead", "statement": "The table of weights of the demo (prices to returns to from_ewmas with mean=True to solve(window)) run on the first k rows of prices is the beginning of the table run on all prices, and every further row of the latter is dated after those k rows; if the first k rows do not suffice, building raises IndexError and nothing in the long table is dated within them.", "quantifier": "all price frames with increasing dates (missing prices included), all k, windows, pairs, warm-ups, clip levels, column choices, both fill modes of pct_change, any arithmetic, linear algebra and solver", "why_tests_cant": "Every prefix of every history would have to be replayed.", "anchors": ["book/marimo/demo.py:27-54", "cvx/covariance/combination.py:from_ewmas", "cvx/covariance/combination.py:solve"]}
{"id": "C127", "title": "What of the prices the demo depends on", "statement": "Multiplying the prices of an asset by a positive constant (other currency, split) changes nothing: same table or same exception. With the default fill mode a missing price counts as the last known one. With positive prices and no gaps, the returns are exactly the relative changes of the chosen columns, dated by the later day, one row fewer than the prices.", "quantifier": "all price frames, positive constants per asset, patterns of gaps, column choices, linear algebra and solvers", "why_tests_cant": "Invariance under a continuum of scalings and under every pattern of gaps.", "anchors": ["book/marimo/demo.py:36", "book/marimo/demo.py:49-54"]}
{"id": "C128", "title": "Dates and weights of the demo's table", "statement": "If the demo returns a table, each expert issued T >= 2 forecasts (T = rows of prices - 1 - the two warm-ups), the table has one row per price date after the first price, the warm-ups and the window, in order, and every row is non-negative and sums to one, one weight per expert.", "quantifier": "all positive prices whose returns cross their moving averages during the covariance warm-up, half-lives, warm-ups, clip levels, windows, feasible solvers", "why_tests_cant": "The schedule depends on the numbers of rows, warm-ups and window, and on every past price.", "anchors": ["book/marimo/demo.py:27-54", "cvx/covariance/iterated_ewma.py:iterated_ewma", "cvx/covariance/combination.py:solve"]}
{"id": "C129", "title": "The optimal combination beats its own experts in sample", "statement": "For every result of CovarianceCombination.solve with an exact optimiser, the Gaussian log-likelihood of the realised returns over the window the weights were fitted on is at least as high under the combined predictor (built with the result's weights at each day of the window) as under any single expert, and as under any weighted combination of any sub-collection of the experts.", "quantifier": "all expert dictionaries with symmetric covariances that from_sigmas accepts, with or without means, all returns, windows and requested times, all exact optimisers, all results, all experts, all sub-collections and weights", "why_tests_cant": "the comparison has to hold for every data set and every expert, and holds only because the objective of the cvxpy problem is exactly that likelihood", "anchors": ["cvx/covariance/combination.py:_CombinationProblem", "cvx/covariance/combination.py:CovarianceCombination.solve", "cvx/covariance/combination.py:CovarianceCombination._solve"]}
{"id": "C130", "title": "A tolerance in the optimiser only moves the forecasts a little", "statement": "For every data set and every d > 0 there is an eps > 0 such that any optimiser returning feasible weights within eps of the optimal objective makes solve complete with as many items, and every result present in both runs has the same time and agrees with the exact one within d in every weight, every mean entry and every covariance entry.", "quantifier": "all expert dictionaries with symmetric covariances that from_sigmas accepts, all returns, windows and times for which the exact solve completes, all d > 0, all optimisers within the tolerance", "why_tests_cant": "continuity is a statement about all small perturbations of the optimiser's answer; a test sees one solver's rounding", "anchors": ["cvx/covariance/combination.py:_CombinationProblem", "cvx/covariance/combination.py:CovarianceCombination.solve"]}
{"id": "C131", "title": "The moving mean is accurate in double precision, however long the history", "statement": "In IEEE-754 binary64 arithmetic (correctly rounded + - * /, exp/log/power with an error of one unit in the last place), center(returns, halflife, min_periods, mean_adj=True) on finite returns of size at most M yields the same rows and columns as in exact arithmetic, no entry of the mean or of the demeaned returns is NaN or infinite, and every entry differs from the exact exponentially weighted mean (respectively from the return minus it) by at most 2^-46 M/(1 - 2^(-1/halflife)), a bound that does not depend on the number of rows.", "quantifier": "all frames of binary64 numbers of size at most M (2^-900 <= M <= 2^1000), any number of rows and assets, all half-lives in [1/2, 2^36], all min_periods, all mathematical libraries with the stated accuracy", "why_tests_cant": "rounding errors accumulate over the history; a test compares one history with a tolerance and cannot show that the error stays bounded for every history and every data", "anchors": ["cvx/covariance/ewma.py:_general", "cvx/covariance/ewma.py:center", "cvx/covariance/ewma.py:_ewma_mean"]}
{"id": "C132", "title": "The volatility is never NaN or negative in double precision, and accurate", "statement": "In IEEE-754 binary64 arithmetic volatility(returns, halflife, min_periods) on finite returns of size at most M yields the same rows and columns as in exact arithmetic; every entry is a number, is nonnegative (the running variance never becomes negative by rounding, not even among subnormal numbers), its square differs from the exact exponentially weighted mean of squares by at most 2^-46 M^2/(1 - 2^(-1/halflife)), and it differs from the exact volatility by at most 2^-23 M/sqrt(1 - 2^(-1/halflife)).", "quantifier": "all frames of binary64 numbers of size at most M (2^-440 <= M <= 2^490), any number of rows and assets, all half-lives in [1/2, 2^20], all min_periods, no clipping, all mathematical libraries with the stated accuracy", "why_tests_cant": "a single cancellation among all histories could make the running variance negative and its square root NaN; only a proof about every rounding error excludes it", "anchors": ["cvx/covariance/ewma.py:_general", "cvx/covariance/ewma.py:variance", "cvx/covariance/ewma.py:volatility"]}
{"id": "C133", "title": "The exponentially weighted covariance is symmetric, accurate and nearly positive semidefinite in double precision", "statement": "In IEEE-754 binary64 arithmetic the EWMA of the outer products of finite rows of size at most M yields the same dates as in exact arithmetic; every matrix is exactly (bitwise) symmetric, all entries are numbers, the diagonal is nonnegative, every entry differs from the exact exponentially weighted mean of the products by at most D = 2^-46 M^2/(1 - 2^(-1/halflife)), and w'Cw >= -D (sum |w_i|)^2 for every real vector w.", "quantifier": "all frames of binary64 numbers of size at most M (2^-440 <= M <= 2^490), any number of rows and assets, all half-lives in [1/2, 2^20], all min_periods, all vectors w, all mathematical libraries with the stated accuracy", "why_tests_cant": "a tolerance in a test says nothing about the worst history or the worst portfolio; the bound must hold for every length of history", "anchors": ["cvx/covariance/ewma.py:_ewma_cov", "cvx/covariance/ewma.py:_general"]}
{"id": "C134", "title": "In double precision the covariance diagonal is the squared volatility to the last digits", "statement": "In every IEEE-754 binary64 run of iterated_ewma, for every asset whose yielded volatility is a number of size between 2^-500 and 2^500, the diagonal entry of the yielded covariance is NaN or differs from the squared volatility by at most 2^-49 times that square (16 units in the last place).", "quantifier": "all settings, all frames of binary64 numbers including NaN and infinities, all mathematical libraries (exp, log, power unrestricted), all yielded items and assets", "why_tests_cant": "two square roots, two divisions and four products are rounded for each entry; the relation has to hold for every value, including subnormal intermediate variances", "anchors": ["cvx/covariance/ewma.py:iterated_ewma", "cvx/covariance/ewma.py:iterated_ewma.scale_cov"]}
{"id": "C135", "title": "End to end, double precision computes the iterated EWMA covariance it should", "statement": "In IEEE-754 binary64 arithmetic, a run of iterated_ewma without mean and clipping whose exact volatilities stay above w and whose exact second moments of the standardised returns stay above g does not raise, yields on the dates of the exact run, all its volatilities and covariance entries are numbers (never NaN or infinite), each volatility has relative error at most B/16 and each covariance entry absolute error at most B M^2 against the run of the same program in exact real arithmetic, where B = 2^-42 (M/w)^4 (1/(1-2^(-1/vola_halflife)) + 1/(1-2^(-1/cov_halflife)))/g is assumed at most 1/2 and M bounds the returns.", "quantifier": "all frames of binary64 returns of size at most M, all lengths of the history (the bound does not grow with it), all half-lives from 1/2 to 2^20, all min_periods, all mathematical libraries with exp/log/power errors below 2^-53/2^-53/2^-52, all yielded dates and entries", "why_tests_cant": "A test compares one history with one tolerance; that errors do not accumulate over arbitrarily long histories through volatility, division, moving covariance, square roots and rescaling is a statement about all histories.", "anchors": ["cvx/covariance/ewma.py:iterated_ewma", "cvx/covariance/ewma.py:_general", "cvx/covariance/ewma.py:volatility", "cvx/covariance/ewma.py:scale_cov"]}
{"id": "C136", "title": "Double-precision covariances are definite and symmetric up to a known margin", "statement": "Under the conditions of C135 (B is its error bound, M the bound on the returns, n the number of assets), every covariance yielded in binary64 is symmetric up to 2 B M^2 per entry, its quadratic form is never below -B M^2 (sum |x_a|)^2, and whenever the quadratic form of the exact covariance is at least l |x|^2 that of the computed one is at least (l - n B M^2) |x|^2: a Cholesky factorisation or a portfolio optimisation on it is safe with that margin.", "quantifier": "all frames of binary64 returns of size at most M, all lengths of history, all half-lives from 1/2 to 2^20, all min_periods, all accurate mathematical libraries, all yielded dates, all test vectors x and bounds l", "why_tests_cant": "definiteness is about all vectors x and the rounding about all histories; a test checks the eigenvalues of one matrix", "anchors": ["cvx/covariance/ewma.py:iterated_ewma", "cvx/covariance/ewma.py:iterated_ewma.scale_cov"]}
{"id": "C137", "title": "A tighter clip never raises a volatility, and leaves ordinary data alone", "statement": "On the same returns, lowering |clip_at| (or setting it instead of None) never raises any entry of volatility(), nor any volatility yielded by iterated_ewma at a common date, whatever the covariance parameters; and as long as every return after the first min_periods_vola observations is at most |clip_at| times the unclipped volatility just before it, clipping changes no entry of volatility() at all.", "quantifier": "all frames of returns, all half-lives, all min_periods, all pairs of clip limits, all dates and assets", "why_tests_cant": "the clipped recursion limits each squared return by a multiple of its own previous output, so the comparison has to be carried along every history", "anchors": ["cvx/covariance/ewma.py:volatility", "cvx/covariance/ewma.py:_ewma_mean", "cvx/covariance/ewma.py:iterated_ewma"]}
{"id": "C138", "title": "The distant past is forgotten at a geometric rate: a rolling window gives the same covariances", "statement": "Running iterated_ewma (no mean, no clipping) on the history without its first d rows yields the same dates from then on; the squared volatilities differ from those of the full run by at most M^2 2^(-m/vola_halflife), m the number of rows kept up to the date, and the covariance entries by at most 7 M^2 (M/w)^6/g^2 (i+1) rho^i, where i counts the standardised returns of the shorter run before the date, rho is the larger of the two daily decay factors, M bounds the returns, w the volatilities from below and g the second moments of the standardised returns from below. Hence for every tolerance there is a window length, the same for all histories, min_periods and universes within these bounds, beyond which the windowed run agrees with the full one; the same bound holds for volatility() itself.", "quantifier": "all frames of returns bounded by M, all numbers d of dropped rows, all half-lives, all min_periods, all tolerances, all common dates and pairs of assets", "why_tests_cant": "a production system that keeps only recent rows relies on it for every history; a test compares one history and one window", "anchors": ["cvx/covariance/ewma.py:iterated_ewma", "cvx/covariance/ewma.py:volatility", "cvx/covariance/ewma.py:_general"]}
{"id": "C139", "title": "Covariances saved as upper triangles come back", "statement": "large_universes.ipynb: saving covariances with save_cov_to_csv and reading them with from_csv_to_cov returns the same dates in the same order, matrices of the original size labelled with the given assets, whose entry (i, j) is the value read back for the upper-triangle entry (min(i,j), max(i,j)) - so symmetric matrices come back unchanged if the csv preserves each number, missing entries included. The number of assets recovered by int(np.sqrt(2*len)) in double precision is exact for every universe up to 94 million assets; a row whose length is no triangular number, or a wrong number of labels, raises ValueError.", "quantifier": "all numbers of assets n with n(n+1) < 2^53, all matrices (any entries, NaN included), all numbers of dates, all label lists, all effects of decimal formatting on a single number", "why_tests_cant": "the square root is rounded and the index arrays grow with n: a test tries one size", "anchors": ["experiments/extensions/large_universes.ipynb:save_cov_to_csv", "experiments/extensions/large_universes.ipynb:from_upper_triangular_to_full", "experiments/extensions/large_universes.ipynb:from_csv_to_cov"]}
{"id": "C140", "title": "A small change of the returns changes the estimates at most in proportion", "statement": "If every return is changed by at most e (same dates and assets), volatility() changes every volatility by at most e, with no condition on the data; and iterated_ewma without winsorization and mean removal returns items for the same dates whose volatilities differ by at most e and whose covariances differ by at most 10 M (M/w)^5 / g^2 times e, where M bounds the returns, w > 0 the volatilities and g > 0 the second moments of the standardised returns. So a correction of a data point, or rounding the input, cannot have an unbounded effect.", "quantifier": "all finite histories of any length, all halflives and min_periods, all pairs of data sets within e of each other (exact arithmetic)", "why_tests_cant": "tests compare two concrete data sets; the bound is for all of them and its constant does not grow with the length of the history", "anchors": ["cvx/covariance/ewma.py:iterated_ewma", "cvx/covariance/ewma.py:volatility", "cvx/covariance/ewma.py:_general"]}
{"id": "C141", "title": "Each sampled day is drawn from the covariance estimated on the days before it", "statement": "generative_mode.ipynb: run_sampling_experiment keeps the training rows and appends one row per step, dated by the test dates in order. Row i is the i-th draw from the CM-IEWMA covariance of the training rows and the rows sampled before it; the first s sampled days do not depend on the number of steps or on later test dates. One single CM-IEWMA run on the sampled returns (or on them with anything appended) contains all these covariances: sample i was drawn from its latest covariance dated before sample i, provided the training rows alone give more than window forecasts. In exact arithmetic every such covariance is symmetric positive definite and dated by the row just before the sample.", "quantifier": "all training sets, numbers of steps, test dates, random generators, solvers, half-life pairs, warm-ups and windows; the last part: real numbers, returns with the activity conditions of C124", "why_tests_cant": "the experiment feeds its own output back: the claim is about every step of a loop over refits, for every random generator", "anchors": ["experiments/extensions/generative_mode.ipynb:fit_cm_iewma", "experiments/extensions/generative_mode.ipynb:run_sampling_experiment", "experiments/utils/experiment_utils.py:add_to_diagonal", "cvx/covariance/combination.py:from_sigmas"]}
{"id": "C142", "title": "get_choleskys factors every covariance exactly, or raises", "statement": "large_universes.ipynb: from a dictionary of symmetric covariances, get_choleskys(covs) succeeds exactly when every one of them is positive definite and raises LinAlgError otherwise. On success both dictionaries have the keys of the input in the same order; each factor carries its covariance's labels, is lower triangular with positive diagonal and F F^T is the covariance; each d is zero, indexed by the covariance's rows. So the factor form |F^T w|^2 + |d w|^2 used by the factor portfolios is exactly the risk w^T S w for every weight vector.", "quantifier": "all dictionaries of symmetric covariances of one size, all weights", "why_tests_cant": "whether the Cholesky factors reproduce the risk has to hold for every positive definite matrix and weight vector; no finite set of matrices shows it, nor that failure happens exactly on the non positive definite ones", "anchors": ["experiments/extensions/large_universes.ipynb::get_choleskys"]}
{"id": "C143", "title": "The combination depends continuously on its data", "statement": "For every data set on which from_sigmas succeeds and solve completes, and every d > 0, there is an e > 0 such that any data with the same keys whose covariances (symmetric), means and returns differ by at most e in every entry are also accepted by from_sigmas, solve completes on them with as many items, and every result present in both runs has the same time and agrees within d in every weight, every mean entry and every covariance entry. So rounding in the inputs, or a small revision of the data, cannot flip the combination to a different answer.", "quantifier": "all expert dictionaries with symmetric covariances that from_sigmas accepts, all means and returns, windows and times for which solve completes, all d > 0, all perturbations within e, all optimal solvers for either data", "why_tests_cant": "the weights are the argmin of an optimisation problem, so a small change of the data could move them far; continuity is a statement about every small perturbation at once", "anchors": ["cvx/covariance/combination.py:from_sigmas", "cvx/covariance/combination.py:_CombinationProblem", "cvx/covariance/combination.py:CovarianceCombination.solve"]}
{"id": "C144", "title": "The combined predictor depends continuously on the returns", "statement": "from_ewmas(returns, pairs, ...).solve(...) without winsorization and mean removal, where every asset has a non-zero return during the volatility warm-up and one between its end and the first forecast: for every d > 0 there is an e > 0 such that any returns for the same dates and assets that differ by at most e in every entry are processed without error, with as many items, and every result present in both runs has the same time and agrees within d in every weight, every mean entry and every covariance entry. Without that condition it fails: with returns e, 1 of one asset there are forecasts for both days for every e <> 0 and only for the second day for e = 0.", "quantifier": "all finite return frames of any length and number of assets, all pairs of positive half-lives, labels, min_periods, windows and times for which the run completes, all d > 0, all perturbations within e, all optimal solvers", "why_tests_cant": "the effect of rounding or revising the data passes through two divisions by data-dependent volatilities and an argmin; that it is bounded by an arbitrarily small d is a statement about all perturbations at once", "anchors": ["cvx/covariance/combination.py:from_ewmas", "cvx/covariance/iterated_ewma.py:iterated_ewma", "cvx/covariance/combination.py:CovarianceCombination.solve"]}
{"id": "C145", "title": "Minimum-risk portfolios are stable under covariance errors", "statement": "Let w be the minimum-risk portfolio for a covariance S and v the one for a covariance S' whose entries differ from those of S by at most e, under the same limits, with short_lim = L. Under S, the variance of v exceeds that of w by at most 2 e L^2; the variance predicted for v differs from that predicted for w by at most e L^2; the weights differ by at most sqrt(n) e L / lam in Euclidean norm, where lam bounds the eigenvalues of S from below. So the weights of a MIN_RISK backtest depend continuously on the forecasts, and the extra risk taken because of a covariance error does not depend on the conditioning of the covariance.", "quantifier": "every number of assets, pair of positive definite covariances, error e, set of limits with a short limit, and pair of min_risk backtests on any day", "why_tests_cant": "It compares optima of all pairs of neighbouring convex problems; a test solves one pair.", "anchors": ["experiments/utils/trading_model.py: Trader.backtest (min_risk), Trader.solve_min_risk"]}
{"id": "C146", "title": "From returns to minimum-risk weights, without jumps", "statement": "If every asset has a non-zero return in both warm-up periods, then for every tolerance eps there is an e > 0 such that any returns for the same dates and assets within e of the given ones give the same number of Results of from_ewmas(...).solve(window), and on every day the minimum-risk weights computed from the two combined covariances, under the same limits with a short limit, differ by at most eps per asset.", "quantifier": "every number of assets and days, returns that move in the warm-ups, half-life pairs, window, limits with a short limit, tolerance; all nearby returns; every optimal solver", "why_tests_cant": "It is a statement about all returns in a neighbourhood, through three optimisation and filtering stages; a test perturbs one history once.", "anchors": ["cvx/covariance/combination.py: from_ewmas, _CovarianceCombination.solve", "cvx/covariance/iterated_ewma.py: iterated_ewma", "experiments/utils/trading_model.py: Trader.backtest, Trader.solve_min_risk"]}
{"id": "C147", "title": "Listing of the assets and unit of the covariances do not matter to backtests", "statement": "If the covariances of each day are given for the assets in another order, or multiplied by a positive number (percent instead of fractions, annual instead of daily; possibly another number each day), then the min_risk, max_diverse and risk_parity weights of every day are the same, asset by asset, and the days without a solution are the same.", "quantifier": "every number of assets and days, positive definite covariances, permutation, sequence of positive factors, limits, pair of processes and convex solvers; runs that return", "why_tests_cant": "It relates the optima of two convex problems for every permutation, factor and covariance sequence; a test compares a few runs up to solver tolerance.", "anchors": ["experiments/utils/trading_model.py: Trader.backtest, Trader.solve_min_risk, Trader.solve_max_diverse, Trader.solve_risk_parity"]}
{"id": "C148", "title": "The efficient frontier is increasing and concave", "statement": "For the mean-variance portfolio type, a larger risk limit never lowers the expected return net of the penalty, and the optimal value at a risk limit between two others is at least the interpolated one (also as reported by three backtests of one trader, whatever was run before). Looser limits never lower the expected return and never raise the least risk. The least variance under an average of two covariance forecasts is at least the average of the least variances.", "quantifier": "every number of assets, positive definite covariances, forecasts, non-negative penalties, risk limits, limits, processes and convex solvers; for the backtests: every day and runs that return, without penalty", "why_tests_cant": "It compares optima over a continuum of convex problems; a test compares a handful up to solver tolerance.", "anchors": ["experiments/utils/trading_model.py: Trader.backtest, Trader.solve_mean_variance, Trader.solve_min_risk"]}
