(** * C40-C44, C69-C75: portfolio backtests (experiments/utils/trading_model.py), in exact arithmetic.

    [backtest solve W T a] is Trader.backtest of trader T with arguments a, in a process with state W (the constraint
    lists, among them the shared default argument, number 0); it returns the new state, the trader, and the exception if
    one was raised.  [solve] is the convex solver, with contract [solve_ok] (SpecTrader.v); [exact_solver] meets it. *)
From Coq Require Import Reals ZArith String List.
Set Warnings "-notation-overridden,-ambiguous-paths".
From mathcomp Require Import all_ssreflect all_algebra.
From Verif Require Import RStruct MatR Num Py Combination Trader SpecTrader TraderLists TraderOpt TraderBt TraderPort TraderUnique TraderParity TraderBt2 TraderHist TraderMain TraderFinal.
Set Implicit Arguments.
Unset Strict Implicit.
Unset Printing Implicit Defensive.
Import GRing.Theory.
Local Open Scope ring_scope.
Delimit Scope R_scope with re.

Theorem solver_exists : forall n, solve_ok (@exact_solver n) /\ forall f P, @exact_solver n f P <> Failed n.
Proof. exact exact_solver_ok. Qed.
Print Assumptions solver_exists.

(** ** C40: growth, drawdown, risk-adjusted returns. *)
Theorem C40_growth : forall n (T : trader n) r, t_rets T = Some r ->
  exists Vs, get_portfolio_growth T = (set_Vs Vs T, None) /\ size Vs = size r /\
    forall t, (t < size r)%N -> nth R0 Vs t = \prod_(s < t.+1) (1 + nth R0 r s / t_adjust T)%re.
Proof. exact growth_main. Qed.
Print Assumptions C40_growth.
Theorem C40_drawdown : forall n (T : trader n) Vs, t_Vs T = Some Vs -> Vs <> [::] -> (forall V, V \in Vs -> Rlt 0 V) ->
  exists dd, compute_max_drawdown T = Ok dd /\ is_max_drawdown Vs dd /\ Rle 0 dd /\ Rlt dd 1 /\
    (dd = 0 <-> forall s t, (s <= t < size Vs)%N -> Rle (nth R0 Vs s) (nth R0 Vs t)) /\
    (forall c T', Rlt 0 c -> t_Vs T' = Some [seq (c * V)%re | V <- Vs] -> @compute_max_drawdown n T' = Ok dd).
Proof. exact drawdown_final. Qed.
Print Assumptions C40_drawdown.
Theorem C40_risk_adjusted : forall n (T : trader n) r sd, t_rets T = Some r -> std r <> 0 -> Rle 0 sd ->
  exists r', get_risk_adj_returns T sd = (set_rets_adj r' T, None) /\ (sqrt 252 * std r')%re = sd /\ exists c, Rle 0 c /\ r' = [seq c * x | x <- r].
Proof. exact risk_adj_main. Qed.
Print Assumptions C40_risk_adjusted.

(** ** C41: dilution with cash keeps the budget and hits the target volatility. *)
Theorem C41_dilute : forall n (T : trader n) sd ws, trader_ok T -> t_diluted T = false -> t_ws T = Some [seq Some w | w <- ws] -> size ws = size (t_times T) ->
  (forall w, w \in ws -> w.1 != 0 /\ row_sum w = 1) -> Rle 0 sd ->
  exists wd, dilute_with_cash T sd = (set_ws_diluted wd T, None) /\ size wd = size ws /\
    forall t, (t < size ws)%N -> let w := nth (0, [::]) ws t in let w' := nth (0, [::]) wd t in
      row_sum w' = 1 /\ (sqrt 252 * vol (nth 0%R (t_Sigmas T) t) w'.1)%re = sd /\
      exists th, Rle 0 th /\ w'.1 = th *: w.1 /\ w'.2 = [seq th * c | c <- w.2] ++ [:: (1 - th)%re].
Proof. exact dilute_final. Qed.
Print Assumptions C41_dilute.
(** get_vol_cont_w multiplies the target by sqrt(adjust_factor). *)
Theorem C41_vol_cont : forall n (T : trader n) (ws : seq 'cV[R]_n) (ob : seq R) sd, trader_ok T -> size ws = size (t_times T) -> size ob = size (t_times T) -> Rle 0 sd ->
  (forall t, (t < size ws)%N -> nth 0%R ws t != 0 /\ (\sum_i nth 0%R ws t i 0)%R = 1 /\ nth 0 ob t = vol (nth 0 (t_Sigmas T) t) (nth 0 ws t)) ->
  exists wd, get_vol_cont_w T ws ob sd = Ok wd /\ size wd = size ws /\
    forall t, (t < size ws)%N -> let w' := nth (0, [::]) wd t in
      row_sum w' = 1 /\ (sqrt 252 * vol (nth 0%R (t_Sigmas T) t) w'.1)%re = (sd * sqrt (t_adjust T))%re /\
      exists th, Rle 0 th /\ w' = (th *: nth 0 ws t, [:: (1 - th)%re]).
Proof. exact vol_cont_final. Qed.
Print Assumptions C41_vol_cont.

(** ** C42: after the first dilution (to sd), whatever is done with the trader, diluted metrics are those of that moment:
    later backtests and other targets sd' are ignored; only the adjust_factor of the last backtest matters. *)
Theorem C42_first_dilution_wins : forall n (solve : solver_t n) W (T0 T1 : trader n) ws sd rf ex ops W' T' sd',
  t_diluted T0 = false -> t_ws T0 = Some ws -> (0 < size (t_returns T0))%N -> dilute_with_cash T0 sd = (T1, None) ->
  history solve (W, T1) ops = (W', T') -> t_adjust T' = t_adjust T0 ->
  (get_metrics T' true sd' rf ex).2 = (get_metrics T0 true (Some sd) rf ex).2.
Proof. exact (fun n solve W T0 T1 ws sd rf ex ops W' T' sd' H1 H2 H3 H4 H5 H6 => @first_dilution n solve W T0 ws sd T1 rf ex ops W' T' sd' H1 H2 H4 H5 H6 H3). Qed.
Print Assumptions C42_first_dilution_wins.
(** The first diluted evaluation is the one that dilutes. *)
Theorem C42_when_diluted : forall n (T : trader n) ws sd rf, t_diluted T = false -> t_ws T = Some ws -> (0 < size (t_returns T))%N ->
  get_total_returns T true (Some sd) rf =
  (let '(T', e) := dilute_with_cash T sd in if e is Some ex then (T', Some ex) else get_total_returns T' true (Some sd) rf).
Proof. exact dilute_first. Qed.
Print Assumptions C42_when_diluted.
Theorem C42_diluted_returns : forall n (T : trader n) ws wd sd rf, t_diluted T = true -> t_ws T = Some ws -> t_ws_diluted T = Some wd ->
  (forall l, rf = Some l -> (size (t_returns T) <= size l)%N) -> size wd = size (t_returns T) -> (forall w, w \in wd -> size w.2 = 1%N) ->
  get_total_returns T true sd rf = (set_rets (returns_of wd (t_returns T) rf) T, None).
Proof. exact diluted_returns. Qed.
Print Assumptions C42_diluted_returns.

(** ** C43: constraint lists are shared. *)
(** They only grow, and every earlier constraint stays. *)
Theorem C43_lists_grow : forall n (solve : solver_t n) l W, well_formed W ->
  well_formed (calls solve W l) /\ (forall q, exists ex, w_lists (calls solve W l) q = w_lists W q ++ ex) /\
  (forall q, consistent (calls solve W l) q -> consistent W q).
Proof. exact calls_grow. Qed.
Print Assumptions C43_lists_grow.
(** A call with limits no portfolio can meet spoils the list for good: after any further calls, every later min_risk
    backtest with that list returns no weights, whatever its own limits. *)
Theorem C43_poison : forall n (solve : solver_t n) W T a l T' a', solve_ok solve -> well_formed W ->
  trader_ok T -> plain_min_risk a -> a_rhos a = None -> (~ exists w : 'cV[R]_n, portfolio (a_limits a) w) ->
  trader_ok T' -> plain_min_risk a' -> a_rhos a' = None -> a_cons a' = a_cons a ->
  let W1 := calls solve (backtest solve W T a).1.1 l in
  let '(_, T2, e) := backtest solve W1 T' a' in
  e = Some SolverError \/ (e = None /\ t_ws T2 = Some (nseq (size (t_times T')) None)).
Proof. exact poison_main. Qed.
Print Assumptions C43_poison.
(** The default limits are such limits for six assets or fewer. *)
Theorem C43_default_limits : forall n, (exists w : 'cV[R]_n, portfolio default_limits w) <-> (7 <= n)%N.
Proof. exact default_feasible. Qed.
Print Assumptions C43_default_limits.
(** Otherwise the leaked constraints are harmless. *)
Theorem C43_harmless : forall n (solve : solver_t n) W T a, solve_ok solve -> (forall f P, solve f P <> Failed n) -> well_formed W ->
  trader_ok T -> plain_min_risk a -> a_rhos a = None -> consistent W (a_cons a) ->
  t_ws (backtest solve W T a).1.2 = t_ws (backtest solve (fresh_world n) T a).1.2 /\ (backtest solve W T a).2 = (backtest solve (fresh_world n) T a).2.
Proof. exact same_as_fresh. Qed.
Print Assumptions C43_harmless.

(** ** C44: robust_min_risk uses each day's covariance but the first day's volatilities. *)
Theorem C44_first_volatilities : forall n (solve : solver_t n) W (T : trader n) a k, solve_ok solve -> trader_ok T -> well_formed W ->
  a_type a = RobustMinRisk -> a_speedup a = false -> a_rhos a = None -> a_kappa a = Some k -> Rle 0 k ->
  let '(W', T', e) := backtest solve W T a in
  e = Some SolverError \/
  (e = None /\ exists ws, t_ws T' = Some ws /\ size ws = size (t_times T) /\
    ((consistent W (a_cons a) /\ (exists w : 'cV[R]_n, portfolio (a_limits a) w) /\
      forall t, (t < size (t_times T))%N -> exists w, nth None ws t = Some (w, [::]) /\
        minimiser (robust_risk (nth 0 (t_Sigmas T) t) k (\col_i sqrt (nth 0 (t_Sigmas T) 0 i i))) (portfolio (a_limits a)) w) \/
     ((~ consistent W (a_cons a) \/ ~ exists w : 'cV[R]_n, portfolio (a_limits a) w) /\ forall t, (t < size (t_times T))%N -> nth None ws t = None))).
Proof. exact robust_main. Qed.
Print Assumptions C44_first_volatilities.

(** ** C69: min_risk weights are, day by day, the portfolio of least predicted volatility within the limits. *)
Theorem C69_min_risk : forall n (solve : solver_t n) W (T : trader n) a, solve_ok solve -> trader_ok T -> well_formed W ->
  a_type a = MinRisk -> a_speedup a = false -> a_rhos a = None ->
  let '(W', T', e) := backtest solve W T a in
  e = Some SolverError \/
  (e = None /\ exists ws ob, t_ws T' = Some ws /\ t_obj T' = Some ob /\ size ws = size (t_times T) /\
    ((consistent W (a_cons a) /\ (exists w : 'cV[R]_n, portfolio (a_limits a) w) /\ size ob = size (t_times T) /\
      forall t, (t < size (t_times T))%N -> exists w, nth None ws t = Some (w, [::]) /\
        minimiser (vol (nth 0 (t_Sigmas T) t)) (portfolio (a_limits a)) w /\ nth 0 ob t = vol (nth 0 (t_Sigmas T) t) w) \/
     ((~ consistent W (a_cons a) \/ ~ exists w : 'cV[R]_n, portfolio (a_limits a) w) /\ forall t, (t < size (t_times T))%N -> nth None ws t = None))).
Proof. exact min_risk_main. Qed.
Print Assumptions C69_min_risk.
(** Such a portfolio is unique: weights depend only on the day's covariance and the limits. *)
Theorem C69_unique : forall n (S : 'M[R]_n) l w w', spd S -> minimiser (vol S) (portfolio l) w -> minimiser (vol S) (portfolio l) w' -> w = w'.
Proof. exact (fun n S l w w' HS => min_unique HS (@portfolio_mid n l)). Qed.
Print Assumptions C69_unique.
Theorem C69_solver_error : forall n (solve : solver_t n) W (T : trader n) a, (forall f P, solve f P <> Failed n) -> (backtest solve W T a).2 <> Some SolverError.
Proof. exact no_solver_error. Qed.
Print Assumptions C69_solver_error.

(** ** C70: mean_variance weights maximise predicted return less the penalty under the risk limit sigma_des * adjust_factor. *)
Theorem C70_mean_variance : forall n (solve : solver_t n) W (T : trader n) a sd rh rhos, solve_ok solve -> trader_ok T -> well_formed W ->
  a_type a = MeanVariance -> a_sigma_des a = Some sd -> t_rhats T = Some rh ->
  (match a_rhos a with None => rhos = [seq 0 | _ <- t_times T]
                     | Some d => mapM (fun t => or_raise (dict_get Z.eqb d t) KeyError) (t_times T) = Ok rhos /\ forall r, r \in rhos -> forall i, Rle 0 (r i ord0) end) ->
  let feasible t := exists u : 'cV[R]_n * R, mv_portfolio (a_limits a) (nth 0 (t_Sigmas T) t) (sd * a_adjust a)%re u in
  let '(W', T', e) := backtest solve W T a in
  e = Some SolverError \/
  (e = Some ValueError /\ consistent W (a_cons a) /\ (exists t, (t < size (t_times T))%N /\ feasible t) /\ exists t, (t < size (t_times T))%N /\ ~ feasible t) \/
  (e = None /\ exists ws ob, t_ws T' = Some ws /\ t_obj T' = Some ob /\ size ws = size (t_times T) /\
    ((consistent W (a_cons a) /\ size ob = size (t_times T) /\ forall t, (t < size (t_times T))%N -> exists u, nth None ws t = Some (u.1, [:: u.2]) /\
        minimiser (fun u => (- mv_value (nth 0%R rh t) (nth 0%R rhos t) u)%re) (mv_portfolio (a_limits a) (nth 0 (t_Sigmas T) t) (sd * a_adjust a)%re) u /\
        nth 0 ob t = mv_value (nth 0 rh t) (nth 0 rhos t) u) \/
     (forall t, (t < size (t_times T))%N -> nth None ws t = None /\ (~ consistent W (a_cons a) \/ ~ feasible t)))).
Proof. exact mv_main. Qed.
Print Assumptions C70_mean_variance.

(** ** C71: max_diverse weights have the largest diversification ratio among long-only portfolios with at most M in one asset;
    the constraint lists and the other limits play no role. *)
Theorem C71_max_diversification : forall n (solve : solver_t n) W (T : trader n) a M, solve_ok solve -> trader_ok T -> a_type a = MaxDiverse -> a_rhos a = None -> upper_bound (a_limits a) = Some M ->
  let '(W', T', e) := backtest solve W T a in
  w_lists W' = w_lists W /\
  (e = Some SolverError \/ (e = Some TypeError /\ ~ exists w : 'cV[R]_n, long_cap M w) \/
   (e = None /\ exists ws, t_ws T' = Some ws /\ size ws = size (t_times T) /\ forall t, (t < size (t_times T))%N -> exists w, nth None ws t = Some (w, [::]) /\
      long_cap M w /\ forall w', long_cap M w' -> Rle (div_ratio (nth 0 (t_Sigmas T) t) w') (div_ratio (nth 0 (t_Sigmas T) t) w))).
Proof. exact md_main. Qed.
Print Assumptions C71_max_diversification.
(** There is only one such portfolio: the forecast of the day and the bound M determine the weights. *)
Theorem C71_unique : forall n (S : 'M[R]_n) M w w', spd S -> (long_cap M w /\ forall u, long_cap M u -> Rle (div_ratio S u) (div_ratio S w)) ->
  (long_cap M w' /\ forall u, long_cap M u -> Rle (div_ratio S u) (div_ratio S w')) -> w = w'.
Proof. exact (fun n S M w w' HS => @md_unique n S HS M w w'). Qed.
Print Assumptions C71_unique.

(** ** C72: risk_parity weights are the unique long-only portfolio with equal risk contributions. *)
Theorem C72_risk_parity : forall n (solve : solver_t n) W (T : trader n) a, (0 < n)%N -> solve_ok solve -> trader_ok T -> a_type a = RiskParity -> a_rhos a = None ->
  let '(W', T', e) := backtest solve W T a in
  w_lists W' = w_lists W /\
  (e = Some SolverError \/
   (e = None /\ exists ws, t_ws T' = Some ws /\ size ws = size (t_times T) /\ forall t, (t < size (t_times T))%N -> exists w, nth None ws t = Some (w, [::]) /\
      risk_parity (nth 0 (t_Sigmas T) t) w /\ forall w', risk_parity (nth 0 (t_Sigmas T) t) w' -> w' = w)).
Proof. exact rp_main. Qed.
Print Assumptions C72_risk_parity.

(** ** C73: options that cannot work. *)
Theorem C73_vol_cont_raises : forall n (solve : solver_t n) W (T : trader n) a, a_type a = VolCont -> (backtest solve W T a).2 <> None.
Proof. exact vol_cont_raises. Qed.
Print Assumptions C73_vol_cont_raises.
(** In the normal case it raises ValueError and leaves the trader marked as diluted; diluted metrics then fail for ever. *)
Theorem C73_vol_cont_damage : forall n (solve : solver_t n) W (T : trader n) a sd, solve_ok solve -> (forall f P, solve f P <> Failed n) -> trader_ok T -> well_formed W ->
  a_type a = VolCont -> a_speedup a = false -> a_rhos a = None -> a_sigma_des a = Some sd -> consistent W (a_cons a) -> (exists w : 'cV[R]_n, portfolio (a_limits a) w) ->
  (backtest solve W T a).2 = Some ValueError /\ t_diluted (backtest solve W T a).1.2 = true /\ t_ws (backtest solve W T a).1.2 = t_ws T.
Proof. exact vol_cont_state. Qed.
Print Assumptions C73_vol_cont_damage.
Theorem C73_lost_metrics : forall n (solve : solver_t n) W (T : trader n) ops W' T' sd rf ex, t_diluted T = true -> t_ws_diluted T = None -> (0 < size (t_returns T))%N ->
  history solve (W, T) ops = (W', T') -> (get_metrics T' true sd rf ex).2 = Raise AttributeError.
Proof. exact lost_for_ever. Qed.
Print Assumptions C73_lost_metrics.
Theorem C73_speedup : forall n (solve : solver_t n) W (T : trader n) a, trader_ok T -> a_type a = MinRisk -> a_rhos a = None -> a_speedup a = true -> (backtest solve W T a).2 = Some NameError.
Proof. exact speedup_dead. Qed.
Print Assumptions C73_speedup.
Theorem C73_max_sharpe : forall n (solve : solver_t n) W (T : trader n) a rh, a_type a = MaxSharpe -> a_rhos a = None -> t_rhats T = Some rh -> upper_bound (a_limits a) <> None ->
  (backtest solve W T a).2 = Some AttributeError.
Proof. exact sharpe_dead. Qed.
Print Assumptions C73_max_sharpe.
Theorem C73_constructor_rhos : forall n returns (Sig : seq (Z * 'M[R]_n)) rh T, new_trader returns Sig rh true <> Ok T.
Proof. exact rhos_dead. Qed.
Print Assumptions C73_constructor_rhos.

(** ** C74: metrics.  With excess=True the mean is that of the adjusted returns less the risk-free rate, but the risk is
    that of the returns without the adjustment. *)
Theorem C74_metrics : forall n (T : trader n) d sd rf ex T' m, get_metrics T d sd rf ex = (T', Ok m) ->
  exists r Vs, t_rets T' = Some r /\ t_Vs T' = Some Vs /\ t_adjust T' = t_adjust T /\ size Vs = size r /\
    (forall t, (t < size r)%N -> nth R0 Vs t = \prod_(s < t.+1) (1 + nth R0 r s / t_adjust T)%re) /\
    (exists T1, get_total_returns T d sd rf = (T1, None) /\ t_rets T1 = Some r) /\
    (ex = false -> m_mean m = (252 * mean [seq (x / t_adjust T)%re | x <- r])%re /\ m_risk m = (sqrt 252 * std [seq (x / t_adjust T)%re | x <- r])%re) /\
    (ex = true -> exists l, rf = Some l /\ size l = size r /\
       m_mean m = (252 * mean [seq (x.1 / t_adjust T - x.2)%re | x <- zip r l])%re /\ m_risk m = (sqrt 252 * std r)%re) /\
    (m_risk m = 0 -> m_sharpe m = None) /\ (m_risk m <> 0 -> m_sharpe m = Some (m_mean m / m_risk m)%re) /\
    compute_max_drawdown T' = Ok (m_drawdown m) /\ ((forall V, V \in Vs -> Rlt 0 V) -> is_max_drawdown Vs (m_drawdown m)).
Proof. exact metrics_main. Qed.
Print Assumptions C74_metrics.
Theorem C74_plain_returns : forall n (T : trader n) ws sd rf, t_ws T = Some [seq Some w | w <- ws] -> (forall l, rf = Some l -> (size (t_returns T) <= size l)%N) ->
  size ws = size (t_returns T) -> (forall w, w \in ws -> size w.2 = (if trades_cash (t_type T) then 1 else 0)%N) ->
  get_total_returns T false sd rf = (set_rets (returns_of ws (t_returns T) rf) T, None).
Proof. exact plain_returns. Qed.
Print Assumptions C74_plain_returns.

(** ** C75: construction. *)
Theorem C75_constructor : forall n (idx : seq Z) (cols : seq string) (rows : seq 'cV[R]_n) (Sig : seq (Z * 'M[R]_n)) (rh : option (frame n)),
  map fst Sig = idx -> (0 < size idx)%N -> size rows = size idx -> (forall S, S \in map snd Sig -> spd S) ->
  (forall f, rh = Some f -> f.1.1 = idx /\ f.1.2 = cols /\ size f.2 = size idx) ->
  exists T, new_trader (idx, cols, rows) Sig rh false = Ok T /\ trader_ok T /\ t_times T = idx /\ t_returns T = rows /\ t_Sigmas T = map snd Sig /\
    t_rhats T = omap snd rh /\ t_diluted T = false /\ t_ws T = None /\ t_ws_diluted T = None.
Proof. exact new_trader_ok. Qed.
Print Assumptions C75_constructor.
Theorem C75_not_positive_definite : forall n returns (Sig : seq (Z * 'M[R]_n)) rh (S : 'M[R]_n), (0 < size returns.1.1)%N -> returns.1.1 = map fst Sig ->
  (forall f, rh = Some f -> f.1.1 = returns.1.1 /\ f.1.2 = returns.1.2) ->
  (forall S', S' \in map snd Sig -> sym S') -> S \in map snd Sig -> ~ spd S -> new_trader returns Sig rh false = Raise LinAlgError.
Proof. exact new_trader_bad. Qed.
Print Assumptions C75_not_positive_definite.
Theorem C75_any_history : forall n (solve : solver_t n) ops W T, trader_ok T -> trader_ok (history solve (W, T) ops).2.
Proof. exact history_ok. Qed.
Print Assumptions C75_any_history.
