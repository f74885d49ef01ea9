(** * C147: min_risk, max_diverse and risk_parity backtests do not depend on how the assets are listed or in which unit the
    covariances are given (experiments/utils/trading_model.py: Trader.backtest).

    T' has, on day t, the covariances of T for the assets in the order s, multiplied by a number c > 0 that may differ from day to
    day; dates and everything else may differ too.  Then the weights are the same, asset by asset (with s the identity: exactly
    the same), and a day without weights in one run has none in the other.  The statements are about runs that return. *)
From Coq Require Import Reals ZArith String List.
Set Warnings "-notation-overridden,-ambiguous-paths".
From mathcomp Require Import all_ssreflect all_algebra.
From Verif Require Import RStruct MatR Num Py Combination Trader SpecTrader TraderRelist.
Set Implicit Arguments.
Unset Strict Implicit.
Unset Printing Implicit Defensive.
Import GRing.Theory.
Local Open Scope ring_scope.
Delimit Scope R_scope with re.

Theorem C147_min_risk : forall n (s : 'I_n -> 'I_n) (T T' : trader n), bijective s -> trader_ok T -> trader_ok T' -> size (t_times T') = size (t_times T) ->
  (forall t, (t < size (t_times T))%N -> exists c, (0 < c)%re /\ forall i j, nth 0 (t_Sigmas T') t i j = (c * nth 0%R (t_Sigmas T) t (s i) (s j))%re) ->
  forall (solve solve' : solver_t n) W W' a a' W1 T1 W2 T2, solve_ok solve -> solve_ok solve' -> well_formed W -> well_formed W' ->
  a_type a = MinRisk -> a_speedup a = false -> a_rhos a = None -> a_type a' = MinRisk -> a_speedup a' = false -> a_rhos a' = None ->
  a_limits a' = a_limits a -> consistent W (a_cons a) -> consistent W' (a_cons a') ->
  backtest solve W T a = (W1, T1, None) -> backtest solve' W' T' a' = (W2, T2, None) ->
  exists ws vs, t_ws T1 = Some ws /\ t_ws T2 = Some vs /\ forall t, (t < size (t_times T))%N ->
    nth None vs t = omap (fun u : 'cV[R]_n * seq R => (\col_i u.1 (s i) 0, u.2)) (nth None ws t).
Proof. exact relist_min. Qed.
Print Assumptions C147_min_risk.

Theorem C147_max_diversification : forall n (s : 'I_n -> 'I_n) (T T' : trader n), bijective s -> trader_ok T -> trader_ok T' -> size (t_times T') = size (t_times T) ->
  (forall t, (t < size (t_times T))%N -> exists c, (0 < c)%re /\ forall i j, nth 0 (t_Sigmas T') t i j = (c * nth 0%R (t_Sigmas T) t (s i) (s j))%re) ->
  forall (solve solve' : solver_t n) W W' a a' M W1 T1 W2 T2, solve_ok solve -> solve_ok solve' ->
  a_type a = MaxDiverse -> a_rhos a = None -> upper_bound (a_limits a) = Some M -> a_type a' = MaxDiverse -> a_rhos a' = None -> upper_bound (a_limits a') = Some M ->
  backtest solve W T a = (W1, T1, None) -> backtest solve' W' T' a' = (W2, T2, None) ->
  exists ws vs, t_ws T1 = Some ws /\ t_ws T2 = Some vs /\ forall t, (t < size (t_times T))%N ->
    nth None vs t = omap (fun u : 'cV[R]_n * seq R => (\col_i u.1 (s i) 0, u.2)) (nth None ws t).
Proof. exact relist_div. Qed.
Print Assumptions C147_max_diversification.

Theorem C147_risk_parity : forall n (s : 'I_n -> 'I_n) (T T' : trader n), bijective s -> trader_ok T -> trader_ok T' -> size (t_times T') = size (t_times T) ->
  (forall t, (t < size (t_times T))%N -> exists c, (0 < c)%re /\ forall i j, nth 0 (t_Sigmas T') t i j = (c * nth 0%R (t_Sigmas T) t (s i) (s j))%re) ->
  forall (solve solve' : solver_t n) W W' a a' W1 T1 W2 T2, (0 < n)%N -> solve_ok solve -> solve_ok solve' ->
  a_type a = RiskParity -> a_rhos a = None -> a_type a' = RiskParity -> a_rhos a' = None ->
  backtest solve W T a = (W1, T1, None) -> backtest solve' W' T' a' = (W2, T2, None) ->
  exists ws vs, t_ws T1 = Some ws /\ t_ws T2 = Some vs /\ forall t, (t < size (t_times T))%N ->
    nth None vs t = omap (fun u : 'cV[R]_n * seq R => (\col_i u.1 (s i) 0, u.2)) (nth None ws t).
Proof. exact relist_parity. Qed.
Print Assumptions C147_risk_parity.
