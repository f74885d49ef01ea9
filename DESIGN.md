# Formal model of cvxgrp/cov_pred_finance in Rocq (Coq 8.16.1)

Everything is in `rocq/theories`, logical name `Verif`.  `properties.jsonl` lists the properties, `MANIFEST.json` maps each to
its theorems, `seeded/LOG.jsonl` records the wrong programs the theorems were tested against.

## 1. How to read the development

| kind of file | files | content |
|---|---|---|
| arithmetic and plumbing | `Num`, `Py`, `F64`, `RStruct`, `MatR`, `RealLA`, `Spectral`, `Compact`, `Simplex` | number systems, exceptions, dictionaries, frames, real matrices |
| **model** (one per Python module) | `Ewma`, `Combination`, `FromEwmas`, `Regularization`, `VecEwma`, `LowRankEwma`, `ExpUtils`, `Trader`, `Backtests`, `Ccp`, `RetComb`, `FactorModel`, `Smooth` | every definition cites file and lines in /repo |
| **specification** | `Spec`, `Spec*` (`SpecEwma`, `SpecComb`, `SpecCombR`, `SpecFrom`, `SpecReg`, `SpecVec`, `SpecLowRank`, `SpecExp`, `SpecTrader`, `SpecBt`, `SpecCcp`, `SpecRet`, `SpecFactor`, `SpecSmooth`) | the vocabulary the theorems are stated in: textbook definitions, no recursion of the model |
| **theorems** | `Prop*` | only `Theorem ... Proof. exact lemma. Qed. Print Assumptions`, each next to an `Example` that meets its hypotheses |
| examples | `ExEwma`, `CombEx`, `TraderEx`, `CcpEx`, `BtEx`, `RetEx`, `FactorEx`, ... | concrete inputs |
| conformance | `Fixtures`, `Conform`, `ConformComb` | tests, not proofs: the model of ewma.py run in binary64 on the fixtures of `tests/test_ewma.py` and `tests/test_iewma_nans.py` (agreement to 1e-10), and the model of combination.py (with list-based linear algebra and a small coordinate-ascent optimiser) on those of `tests/test_from_sigmas.py` and `tests/test_from_ewmas.py`: the covariances agree to 1e-10 for the stored weights, the weights of all four runs to 1e-5 |
| everything else | | proofs |

## 2. Modelling decisions

* *Arithmetic.*  `Ewma`, `Combination`, `FromEwmas`, `VecEwma` are written once over a record `Num` (resp. `LinAlg`) of
  operations about which nothing is assumed.  Theorems quantified over `N : Num` / `LA : LinAlg` hold for IEEE binary64 as well
  as for exact numbers (C01, C07, C13, C17, C18, C23-C25, C27, C29, C30, C55, C68).  `XR` = reals with +inf, -inf, NaN and the
  IEEE propagation rules but no rounding; it is the proof domain of the other ewma.py theorems, so NaN behaviour is modelled.
  Everything involving matrices is proved over Coq's reals (mathcomp matrices over `R`).  Theorems over `XR`/`R` are about
  exact arithmetic.  **Rounding** is modelled for the moving means, the volatility, the EWMA covariance and the diagonal of its scaling (C131-C134): `IEEE L` (`Ieee.v`) is the
  instance of `Num` given by Flocq's binary64 (+ - * / sqrt correctly rounded to nearest even, one NaN), with exp, log and
  integer powers taken from an arbitrary library `L` whose accuracy is a hypothesis (met by correct rounding,
  `rounded_accurate`).  The accuracy of the whole
  iterated estimator, the combination and everything with matrix factorisations is proved in exact arithmetic only.
* *Exceptions* are values (`Raise KeyError`, ...).  A generator is the list of the items it yields and the exception that ends
  it, if any.
* *pandas*: a frame is (index, columns, rows); time stamps are integers; an index is strictly increasing where the theorem says
  so.  Dictionaries are association lists in insertion order.  Mutable Python objects that are shared (the dictionary and
  arrays given to `add_to_diagonal`, the default list `cons=[]` of `Trader.backtest`, the cvxpy parameters of a `Trader`) are
  modelled as a heap / world that is threaded through the calls.
* *Oracles.*  External numerics are arguments with a contract that appears as a hypothesis of the theorems that need it, and
  that is shown satisfiable (an exact implementation exists and is used in the examples): matrix inverse and Cholesky (contract:
  inverse of a unit / the unique lower triangular factor, otherwise LinAlgError), `eigh` / `eigsh` (orthonormal eigenvectors,
  sorted / largest in magnitude), the cvxpy solver (a returned point is feasible and optimal, or SolverError, or None), `pca`
  (any function of its argument; orthonormal rows where needed).
* *Multiprocessing* (`pool.starmap` in `Trader.backtest`): the workers get independent copies, so that it is a `map` whose
  first exception is re-raised.
* *Printing, plotting, progress bars* have no effect, except for `create_table`, whose printed lines are part of the model.

## 3. What is modelled and what is not

| file | modelled | not modelled |
|---|---|---|
| cvx/covariance/ewma.py | all functions | DataFrames with duplicate labels; time-delta half-lives; `alpha` given directly to `_general` |
| cvx/covariance/combination.py | all functions; the cvxpy problem as objective and constraints (`RealLA.v`) | the solver's numerics; rank of NaN data inside cvxpy; keyword arguments passed to the solver |
| cvx/covariance/regularization.py | all functions | matrices with NaN; a zero variance (NaN in the code) is an error value |
| experiments/utils/experiment_utils.py | all functions except those on the right | the plots of `yearly_SR`; `_realized_covariance` for dates with one row |
| experiments/utils/iterated_ewma_vec.py | `get_next_ewma`, `ewma`, the four helpers, `iterated_ewma` up to the line where it always raises (C68) | the code behind that line |
| experiments/utils/low_rank_ewma.py | all functions | non-finite standardised returns (an asset that has not moved yet) and a zero together with a zero row of factors give the error value `Unmodelled` |
| experiments/utils/trading_model.py | `Trader`: constructor, all portfolio types, dilution, returns, growth, drawdown, metrics; `construct_rho` | C code generated by cvxpygen (C_speedup: modelled as failing, C73); broadcasting of single rows; zero predicted risk (infinite weights) |
| experiments/utils/portfolio_backtests.py | all functions | unsorted indices; NaN forecasts |
| experiments/utils/ccp_regularize.py | all functions | complex or singular intermediate matrices give error values |
| experiments/utils/return_combination.py | all functions that are not commented out | NaN in returns or predictions; memory 0; unsorted indices; `np.linalg.solve` with NaN |
| experiments/utils/factor_model.py | all functions | NaN returns. The theorems assume distinct labels of the halflife pairs; `cvx.linalg.pca` is an arbitrary function of its rows |
| experiments/extensions/smoothing.ipynb | `get_next`, `L1_smoothing`, `frob_difference` (`ewma_smoothing` is a call of `ewma`, C38) | plots, data |
| experiments/industry_portfolios.ipynb, stock_portfolios.ipynb, factor_portfolios.ipynb, extensions/nonzero_means.ipynb | the signal helpers `tune_returns`, `tune_returns2`, `get_sign_prediction`, `get_moving_autocorrelations` | plots, data, row and column labels |
| experiments/extensions/generative_mode.ipynb | `_ewma_cov`, `_general` (`Gen.v`); `fit_cm_iewma`, `run_sampling_experiment` (`Sampling.v`) | `clip_at` (never passed), infinities, the plots |
| experiments/industry_portfolios.ipynb (and the same cells of the other portfolio notebooks) | the CM-IEWMA cell (`CmIewma.v`), the PRESCIENT cell, the log-likelihood loop, the regrets | scoring a NaN matrix, regrets over different indices, the plots and tables |
| book/marimo/demo.py | cells at 27-54: prices to the table of weights (pct_change in both fill modes) | plotting, the marimo UI, reading the csv, slicing of columns by position is a list of names |
| experiments/extensions/large_universes.ipynb | the csv helpers of cell 5 (`CovCsv.v`), `get_choleskys` of cell 19 (`Choleskys.v`) | reading and writing decimal numbers (an arbitrary function), covariances of different sizes in one file, plots, data |
| rest of book/, the other notebooks, tests | nothing | |

## 4. Per property: what is modelled, how it is proved

| id | model | proof |
|----|-------|-------|
| C01 | `iterated_ewma` and all its stages, any Num | every stage is prefix stable (`EwmaPrefix`) |
| C02, C03 | `_general` over XR | induction on rows; closed form with geometric weights, half-life identity 2^(-h/H) |
| C04 | whole pipeline | position arithmetic through the three stages, never earlier than the warm-ups |
| C05 | `_ewma_cov`, `scale_cov` | quadratic form as a weighted sum of squares |
| C06-C08 | NaN propagation in XR | tabulated form of every stage (`EwmaTab`), invariant "NaN since then" |
| C09, C10 | clipped recursion | invariant over steps; zero volatility is absorbing |
| C11, C12 | `clip`, `center` | pointwise |
| C13, C14 | pipeline | one commutation lemma per stage for "permute and rescale columns" (`EwmaEquiv`) |
| C15 | pipeline, mean=True | first centred row is zero, 0/0 = NaN; converse: only then |
| C16 | `solve` over real matrices | Gram matrix of the combined Cholesky factor |
| C17, C18 | `solve`, any LinAlg | closed form of every item (`CombItems`): which experts' rows and returns it reads |
| C19, C20 | the cvxpy objective | log-likelihood identity; strict concavity; existence by compactness of the simplex |
| C21, C22 | `solve` | unique feasible point / equal factors |
| C23-C25 | `solve` | list arithmetic, the run as a list of independent problems |
| C26 | `solve` | rank argument: the objective is constant along a direction, contract of the solver |
| C27, C29, C56 | constructor | closed form of the constructor; Cholesky of an SPD matrix exists |
| C28 | constructor + solve | diagonal congruence of all objects |
| C30 | `from_ewmas` | refinement to `from_sigmas` of `iterated_ewma` outputs |
| C31-C33, C57, C58 | `regularize_covariance` with an eigh oracle | orthonormal eigenvectors; Eckart-Young for the principal factors; induction over the generator |
| C34-C36, C59, C60 | EM: `_e_step`, `_m_step` | Gaussian KL divergence >= 0, Woodbury; equality case |
| C37, C66 | `rolling_window`, realised (co)variances | induction over rows |
| C38, C67, C68 | `iterated_ewma_vec` | induction over items; comparison with the library closed form |
| C39 | low-rank EWMA with an eigsh oracle | eigen-decomposition algebra; invariant "variance = EWMA of squares" over rows |
| C40-C44, C69-C75 | `Trader` as a state machine with a shared world | induction over call histories; optimality from the solver contract; uniqueness by strict convexity of the norm |
| C45, C54, C82-C88 | `PortfolioBacktest` and tables | closed form of `_get_causal`; run of the loop over predictors |
| C46, C96-C99 | `factor_model.py` on top of the models of ewma, combination and experiment_utils | block arithmetic; closed forms of the parts |
| C100, C101 | `low_rank_iterated_ewma` as a generator: `lr_stages` (the calls of ewma.py), `lr_yield` (the loop) | closed forms of the ewma stages, congruence of the remainder of C39, prefix lemma of the loop |
| C102 | `em_low_rank_log_likelihood` as the composition of the three modelled functions | C33, C34 and C37 (scores) composed; the start of the EM iteration is the dense regularised matrix |
| C103 | `construct_rho` with the recursion of pandas' `ewmcov` | the state of the recursion equals the weighted sums after every prefix; induction on the series |
| C104 | `yearly_SR`: filter of short years, yearly bins, mean and standard deviation per bin | list reasoning; permutations and scaling of sums |
| C105 | `_get_realized_covs`, `_get_realized_vars`, `_refactor_to_corr`, `_regularize_correlation` of iterated_ewma_vec.py | entries of the spectral sum; the lists of kept eigenvectors are those of regularization.py |
| C106 | `Smooth.v`: `get_next`, `L1_smoothing` line by line; optimiser and PSD check are arguments | the step is the proximal map of the norm: subgradient inequality (Cauchy-Schwarz) gives the unique minimiser over all matrices; then induction over the dates |
| C107 | `Smooth.v`: `frob_difference` | direct computation; the link with C106 from the strict move of an update |
| C108, C109 | `Signals.v`: `tune_returns`, `tune_returns2` | the quantile is specified by counting and shown unique; the sorted list with interpolation meets the specification |
| C110 | `Signals.v`: `get_sign_prediction` with `np.argsort` as an argument | counting below and above a position of a sorted list |
| C111 | `Signals.v`: `get_moving_autocorrelations` on the EWM model | Cauchy-Schwarz for weighted sums; closed forms of the EWM |
| C112, C113 | `Gen.v`: `_ewma_cov`, `_general` of generative_mode.ipynb as generators; the sampler is an argument | the recursion equals the weighted average after every prefix; induction over the samples; spectral theorem for the contract's witness |
| C114-C116 | `Prescient.v`: the PRESCIENT cell, the scoring loop and the regrets; a date is (year, month, moment) | quarter arithmetic by cases; the centring identity; log-det/trace inequality with its equality case for C115; density under a linear map for C116; a kernel vector for short quarters |
| C117, C118 | the Ewma.v / FromEwmas.v models over exact reals and real matrices (`RLA`); `SpecRank.v` | covariance form as a weighted sum of squared portfolio rows; kernel vector of a short row matrix; positive definite iff inverse has a Cholesky factor |
| C28 (assets), C119 | Combination.v over real matrices; `SpecMove.v` (the same data in other assets) | Cholesky factors of T S Tᵀ are U L with U = T⁻ᵀ lower triangular, so every problem posed has the same optimum (`CombMove.v`, `CombMoveRun.v`); the counterexample to asset order is solved exactly for every optimal solver (`CombOrder.v`) |
| C120–C122 | FromEwmas.v composed with Ewma.v and Combination.v; `SpecFromR.v` (finite items, reading lists as vectors) | the prefix theorem of iterated_ewma (C01) turned into `extends` for the dictionaries from_ewmas builds, then the combination's prefix theorem (C17), in any arithmetic (`FromRun.v`); in exact arithmetic the experts' schedule (C30) composed with the combination's (C23), and the rescaling theorem of iterated_ewma (C14) composed with C28 (assets) (`FromUnits.v`); case: one asset, two half-lives, four days (`FromExRun.v`, `FromEx.v`) |
| C123–C125 | `CmIewma.v`: the CM-IEWMA cell (iterated EWMAs, inflated diagonal of the first expert, from_sigmas, solve, dictionaries by date) over Ewma.v and Combination.v | prefix theorem of the items turned into `extends` of the dictionaries, also for the regularised expert, then C17 (`CmRun.v`); the regularised expert is definite by C05 + C50 and positive variances (`CmPos.v`); scale_variances commutes with a change of units (`CmReal.v`); the example is solved exactly (`CmEx.v`) |
| C126–C128 | `Demo.v`: pct_change, dropna, column choice, from_ewmas(mean=True), the table of weights, over Ewma.v and Combination.v | the returns of a prefix are a prefix of the returns, then C120 (`DemoRun.v`); quotients cancel constants, ffill is idempotent (`DemoUnits.v`, `DemoFin.v`); C121 with `crosses` (`FromFiniteMean.v`, `DemoReal.v`); the example is solved exactly (`DemoExRun.v`, `DemoExR.v`) |
| C129–C130 | `Combination.v` in the exact arithmetic of `RealLA.v`, as C19 | a unit weight vector (or one padded with zeros) is feasible and gives that expert (that sub-collection), then C19 (`CombBest.v`, `CombMore.v`); the objective is strongly concave (`near_qf`, `spd_lower`) and the forecast is continuous in the weights (`CombNear.v`) |
| C131–C134 | the model of ewma.py over `IEEE L` (Flocq binary64) | per-operation error bounds (`RoundStep.v`), one step of the recursion (`RoundReal.v`, `RoundRun.v`: the error contracts by 1 - gain and gains at most 54 gain u M/(1-b) + 4uM), the exact average is Lipschitz in the decay (`RoundLip.v`), the computed decay (`RoundDecay.v`), frames (`RoundFrame.v`, `RoundVol.v`); sign of the running variance incl. subnormals (`RoundSign.v`); products and quadratic forms (`RoundCov.v`); relative errors in scale_cov (`RoundDiag.v`) |
| C135 | the whole model of iterated_ewma over `IEEE L` against the same over the reals (no mean, no clip) | return/volatility quotient, 1/sqrt of the moments and the rescaling with relative errors (`RoundScale.v`), propagation through the EWMA of products and Cauchy–Schwarz (`RoundPipe.v`), frames (`RoundPipe2.v`), the exact run (`RoundPipe3.v`) |
| C136 | the same two runs as C135 | the entrywise bound of C135 summed over the quadratic form (Cauchy–Schwarz), semidefiniteness of the exact covariance (`RoundPsd.v`) |
| C137 | `volatility`, `iterated_ewma` over the reals with two clip settings | induction along the clipped recursion `winsor_var` (`ClipMono.v`) |
| C138 | `volatility`, `iterated_ewma` over the reals on a frame and on its later rows | averages split into the dropped and the kept part, propagation of a geometrically decaying error through quotient, moments and correlation (`ForgetReal.v`, `ForgetRun.v`), uniform window length (`ForgetMain.v`) |
| C139 | `CovCsv.v`: the csv helpers of large_universes.ipynb over any number type; the size by a binary64 square root (Flocq) | matrices as tables, fancy assignment as pointwise update, sqrt(n(n+1)) between n and n + 1/2 survives rounding (`CovCsvProps.v`) |
| C140 | `volatility`, `iterated_ewma` over the reals on two frames | triangle inequality for weighted root mean squares, propagation through quotient, moments and correlation (`LipRun.v`), combined with the closed form of the run of C138 (`LipMain.v`) |
| C141 | `Sampling.v`: `fit_cm_iewma` (the cell of C123 and its last covariance), `run_sampling_experiment` | induction on steps; replay by the no-look-ahead theorem of the cell (`SamplingProps.v`); positive definiteness by C124 on each extended frame (`SamplingReal.v`) |
| C142 | `Choleskys.v`: `get_choleskys` | induction on the dictionary; `chol` sound and complete for symmetric positive definite matrices (`MatR.v`) (`CholeskysProps.v`) |
| C143 | `Combination.v` in the exact arithmetic of `RealLA.v`, as C19 | inverse, Cholesky factor, log, average are continuous at the data (`StableTop.v`), so the objective is uniformly close on the feasible set (`CombStable.v`); strong concavity as in C130 moves that to the weights, and to the forecast (`CombStableRun.v`) |
| C144 | `FromEwmas.v` on top of `Ewma.v` and `Combination.v` in exact arithmetic, as C121 | the bounds of C140 with constants from the given history make the items continuous (`FromCont1.v`), the dictionaries are then near (`FromCont.v`) and C143 applies |
| C145 | `Trader.v` (solve_min_risk, backtest), on top of C69 | first-order optimality along the segment between the two optima (the limits are convex), d'Sd <= e L \|d\|_1, Cauchy-Schwarz (`TraderLip.v`); continuity with `spd_lower` |
| C146 | `FromEwmas.v`, `Combination.v`, `Trader.v` | C144 with the tolerance that C145 needs on each day (finitely many), definiteness of both covariances by C121 (`ChainLip.v`) |
| C147 | `Trader.v` (backtest), on top of C69, C71, C72 | the relisted optimum is optimal for the relisted problem; uniqueness (`TraderRelist.v`) |
| C148 | `Trader.v` (solve_mean_variance, backtest), on top of C70 and C69 | volatility is convex (Cauchy-Schwarz for the whitened vectors), so points between two feasible ones are feasible and at least as good (`TraderFrontier.v`) |
| C47, C48, C89-C95, C53 | `return_combination.py` | normal equations of strictly convex quadratics; lasso optimality; EWMA closed forms |
| C49 | packing | index arithmetic (triangular numbers) for any entry type |
| C50 | `add_to_diagonal` with references | heap model |
| C51, C62 | likelihoods | determinant and inverse identities; loop invariants |
| C52, C76-C81 | CCP | matrix calculus done by exact second-order expansion; matrix inversion identities |
| C55, C61 | pipeline | shapes and closed forms of every number of an item |
| C63-C65 | turnover, ecdf, MSE | direct |

Every property is expressed in the model; what is left out is said in section 3 and in the notes of `MANIFEST.json`.

## 5. Trusted base

1. Coq's kernel (8.16.1), its standard library, mathcomp, Coquelicot (compactness only).  No plugin, no own axiom, no disabled
   check, no `Admitted`.
2. The reading of the Python code: that the definitions of the model files do what the cited lines do, and that pandas, numpy,
   scipy and cvxpy behave as the comments in `Py.v` and at the definitions say.  `Conform.v` runs the float instance of
   ewma.py's model on fixtures of the repository (evidence, not proof; it uses Coq's primitive floats, no property theorem does).
3. The contracts of the oracles (section 2), which appear as hypotheses.
4. The following axioms of the standard library, as listed by `Print Assumptions` for each theorem:
| letter | axiom |
|---|---|
| a | `ClassicalDedekindReals.sig_forall_dec` |
| b | `ClassicalDedekindReals.sig_not_dec` |
| c | `FunctionalExtensionality.functional_extensionality_dep` |
| d | `Classical_Prop.classic` |
| e | `Epsilon.epsilon_statement` |
| f | `RelationalChoice.relational_choice` |
| g | `ClassicalUniqueChoice.dependent_unique_choice` |
| h | `ClassicalEpsilon.constructive_indefinite_description` |

(a, b, c come with the construction of the reals; e makes them a mathcomp choice type; d, f, g, h are classical logic and
choice, used for compactness and for existence of exact solvers in examples.)

| axioms | theorems |
|---|---|
| none | C86_constructor, C86_no_predictors, C123_no_look_ahead, C124_all_or_nothing, C17_no_look_ahead, C18_scored_on_the_next_return, C23_schedule, C23_too_short, C23_missing_return, C24_times_agree, C24_times_errors, C25_failures_isolated, C27_misaligned, C27_aligned, C27_singular, C27_means_mismatch, C27_means_missing, C29_means_default, C30_is_from_sigmas, C30_pair_raises, C126_no_look_ahead, C126_table, C01_no_look_ahead, C07_nan_is_zero_fill, C07_fill_first, C13_asset_order, C55_shapes, C49_unpack, C49_round_trip, C49_other_lengths, C49_matrix, C120_no_look_ahead, C92_value, C141_structure, C141_prefix, C141_replay, C73_constructor_rhos, C38_needs_min_periods, C68_always_raises |
| a | C54_last_label |
| a c | C11_limit_inside, C64_ecdf, C116_regret, C48_not_half_life, C53_split, C108_values, C108_quantile, C108_total, C108_errors, C108_order, C108_share, C108_units, C108_mirror, C108_swap, C108_assets, C108_no_look_ahead, C108_no_cut, C109_values, C109_counts, C109_any_sign, C109_units, C109_mirror, C110_outcome, C110_values, C110_signals, C110_counts, C110_narrow, C110_large_forecasts |
| a c e | C45_causal, C45_shift, C45_total, C45_missing, C34_five_updates, C36_fixed_point, C37_value, C37_not_the_window_mean, C37_bad_input, C50_in_place, C50_calls_compound, C50_definite, C63_turnover, C65_mse, C65_unknown_time, C114_value, C114_constant, C114_definite, C116_prescient, C48_scales, C53_parts, C91_past_only, C93_lasso, C93_large_penalty, C93_same_fit, C95_agree, C95_no_solution, C95_negative_penalty, C40_growth, C40_drawdown, C43_default_limits, C105_outcome, C105_realized |
| a b c | C104_years, C104_order, C104_leverage |
| a d h | solver_exists |
| a b c e | C52_parametrisation, C52_round_trip, C52_build, C142_succeeds, C142_factors, C142_risk, C16_combined_covariance, C21_single_expert, C22_agreement, C26_degenerate_window, C26_identical_experts, C26_too_few_numbers, C27_positive_definite, C10_cannot_be_combined, C29_zero_means, C66_realised, C98_zero_step, C148_monotone, C148_concave, C148_limits_return, C148_limits_risk, C148_average_forecast, C39_any_solver, C39_update, C39_no_loss, C39_rescaled, C39_rescaled_defined, C31_variances, C32_factor_structure, C33_same_run, C33_same_matrix, C33_factors, C94_range, C106_shape, C106_day, C106_optimal, C106_tracks, C106_calmer, C106_covariance, C106_prefix, C106_total, C106_unique, C106_units, C106_extremes, C106_errors, C107_values, C107_units, C107_smoothed, C40_risk_adjusted, C41_dilute, C41_vol_cont, C42_when_diluted, C42_diluted_returns, C74_metrics, C74_plain_returns, C75_constructor, C145_regret, C145_forecast, C145_weights, C145_continuous, C105_low_rank, C105_correlations |
| a b c d | C137_volatility, C137_ordinary_data, C137_items, C30_same_schedule, C30_too_short, C144_jump_at_zero, C139_round_trip, C139_symmetric, C139_size, C139_bad_length, C139_bad_labels, C127_price_units, C127_gaps, C127_returns, C02_ewma_closed_form, C03_halflife_weights, C03_constant_reproduced, C04_schedule, C04_too_short, C04_first_move, C04_never_moved, C04_never_early, C05_covariance_structure, C06_nan_pattern, C08_nan_poisons, C09_winsorised_step, C09_path, C09_warm_up_not_limited, C10_trap, C10_trap_volatility, C10_no_trap_without_clip, C11_clip, C11_clip_none, C11_clip_sign, C11_clip_idempotent, C12_center, C12_center_off, C12_first_row_zero, C14_unit_invariance, C15_first_covariance_nan, C15_nan_iff_constant, C61_items, C61_every_run, C138_volatility, C138_items, C138_rolling_window, C112_errors, C140_volatility, C140_items, C117_definite, C103_formula, C103_no_look_ahead, C103_affine, C131_mean_rounding, C132_volatility_rounding, C133_covariance_rounding, C134_diagonal_rounding, C135_pipeline_rounding, C135_same_program, C136_nearly_definite, C38_items, C38_plain, C38_agrees_with_library, C38_keeps_psd, C38_empty, C67_runaway, C67_data_ignored, C67_not_psd |
| a b c d e | C129_best_expert, C129_more_experts, C130_stable, C82_all_or_nothing, C85_eq_weighted, C87_table, C88_earned, C81_proximal_unsafe, C146_returns_to_weights, C124_builds, C124_dates, C125_units, C19_objective_is_loglik, C20_expert_order, C28_units, C56_healthy_run, C144_continuous, C128_dates, C102_raises, C51_single, C51_one_covariance, C51_errors, C51_sequential_returns_none, C46_tiling, C46_order, C46_contents, C96_no_lookahead, C96_prefix, C97_full, C97_dict, C98_failure, C98_too_short, C98_short_memory, C98_still, C98_pca_fails, C98_unsolved, C99_unknown, C99_singular, C121_mean, C122_mean, C121_schedule, C121_data, C122_units, C122_data, C112_events, C112_finite, C113_samples, C113_total, C113_missing, C113_span, C113_prefix, C113_no_look_ahead, C39_run, C39_run_exact_start, C39_run_complete, C100_agrees, C100_complete, C101_no_look_ahead, C28_assets, C119_triangular, C114_errors, C114_short_quarter, C117_too_few, C118_definite, C118_indefinite, C118_too_few, C58_outcome, C47_ridge, C47_causal, C47_total, C47_misaligned, C47_bad_input, C89_units, C90_linear, C90_errors, C91_value, C91_half_life, C91_bad_half_life, C94_grid, C141_positive_definite, C111_range, C111_full, C111_lag, C111_exceeds_one, C111_no_look_ahead, C111_units, C111_outcome, C143_continuous, C42_first_dilution_wins, C43_lists_grow, C69_unique, C69_solver_error, C71_unique, C73_vol_cont_raises, C73_lost_metrics, C73_speedup, C73_max_sharpe, C75_not_positive_definite, C75_any_history |
| a b c d e f g | C83_min_risk, C84_no_look_ahead, C84_other_strategies, C85_max_diverse, C85_risk_parity, C85_mean_variance, C76_objective, C76_any_state, C77_iteration, C77_likelihood, C78_gradient, C78_stationary_iff_minimal, C78_unique, C79_fixed_points, C79_exact_model, C80_outcomes, C20_one_optimum, C34_likelihood, C34_each_iteration, C35_succeeds, C35_valid_model, C59_likelihood_equations, C60_missing_start, C102_scores, C51_gaussian, C62_low_rank, C62_dense, C62_regularized, C62_gaps, C46_live, C99_scores, C148_backtests, C119_order_matters, C114_scores, C114_scored, C115_best, C115_not_best, C115_regret, C116_scores, C57_principal_factors, C93_solvable, C95_total, C43_poison, C43_harmless, C44_first_volatilities, C69_min_risk, C70_mean_variance, C71_max_diversification, C72_risk_parity, C73_vol_cont_damage, C145_backtests, C147_min_risk, C147_max_diversification, C147_risk_parity |
