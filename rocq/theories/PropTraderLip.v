(** * C145: errors in the covariance and minimum-risk portfolios (experiments/utils/trading_model.py: MinRiskProblem, min_risk backtests).

    [minimiser (vol S) (portfolio l) w]: w is the minimum-risk portfolio under covariance S and limits l (C69: these are the
    weights that a min_risk backtest returns); w' S w is [qf S w], its variance per period.  Throughout, short_lim = L
    (sum |w_i| <= L), and the entries of the two covariances differ by at most e. *)
From Coq Require Import Reals ZArith String List.
Set Warnings "-notation-overridden,-ambiguous-paths".
From mathcomp Require Import all_ssreflect all_algebra.
From Verif Require Import RStruct MatR Num Py Combination Trader SpecTrader TraderLip.
Set Implicit Arguments.
Unset Strict Implicit.
Unset Printing Implicit Defensive.
Import GRing.Theory.
Local Open Scope ring_scope.
Delimit Scope R_scope with re.

(** The portfolio chosen under the wrong covariance has, under the right one, at most 2 e L^2 more than the least variance. *)
Theorem C145_regret : forall n l (S S' : 'M[R]_n) e L w v, spd S -> spd S' -> (0 <= e)%re ->
  (forall i j, (Rabs (S i j - S' i j) <= e)%re) -> short_lim l = Some L ->
  minimiser (vol S) (portfolio l) w -> minimiser (vol S') (portfolio l) v ->
  (qf S w <= qf S v <= qf S w + 2 * e * (L * L))%re.
Proof. exact regret. Qed.
Print Assumptions C145_regret.
(** The variance promised differs by at most e L^2 from the variance that could have been promised. *)
Theorem C145_forecast : forall n l (S S' : 'M[R]_n) e L w v, spd S -> spd S' -> (0 <= e)%re ->
  (forall i j, (Rabs (S i j - S' i j) <= e)%re) -> short_lim l = Some L ->
  minimiser (vol S) (portfolio l) w -> minimiser (vol S') (portfolio l) v ->
  (Rabs (qf S' v - qf S w) <= e * (L * L))%re.
Proof. exact forecast. Qed.
Print Assumptions C145_forecast.
(** The weights move by at most sqrt n * e L / lam, lam a lower bound for the eigenvalues of the covariance. *)
Theorem C145_weights : forall n l (S S' : 'M[R]_n) e L w v, spd S -> spd S' -> (0 <= e)%re ->
  (forall i j, (Rabs (S i j - S' i j) <= e)%re) -> short_lim l = Some L ->
  minimiser (vol S) (portfolio l) w -> minimiser (vol S') (portfolio l) v ->
  forall lam, (0 < lam)%re -> (forall x : 'cV[R]_n, (lam * (\sum_i x i 0 * x i 0)%R <= qf S x)%re) ->
  ((\sum_i (v i 0 - w i 0) * (v i 0 - w i 0))%R <= INR n * ((e * L / lam) * (e * L / lam)))%re.
Proof. exact weights_sum. Qed.
Print Assumptions C145_weights.
(** They depend continuously on the covariance. *)
Theorem C145_continuous : forall n l (S : 'M[R]_n) L w eps, spd S -> short_lim l = Some L -> minimiser (vol S) (portfolio l) w -> (0 < eps)%re ->
  exists2 d, (0 < d)%re & forall S' v, spd S' -> (forall i j, (Rabs (S i j - S' i j) <= d)%re) ->
    minimiser (vol S') (portfolio l) v -> forall i, (Rabs (v i 0%R - w i 0%R) <= eps)%re.
Proof. exact weights_cont. Qed.
Print Assumptions C145_continuous.
(** Two min_risk backtests, of any two traders in any two processes: day by day. *)
Theorem C145_backtests : forall n (solve solve' : solver_t n) W W' (T T' : trader n) a a' L e W1 T1 W2 T2 ws vs,
  solve_ok solve -> solve_ok solve' -> trader_ok T -> trader_ok T' -> well_formed W -> well_formed W' ->
  a_type a = MinRisk -> a_speedup a = false -> a_rhos a = None -> a_type a' = MinRisk -> a_speedup a' = false -> a_rhos a' = None ->
  a_limits a' = a_limits a -> short_lim (a_limits a) = Some L -> (0 <= e)%re ->
  backtest solve W T a = (W1, T1, None) -> backtest solve' W' T' a' = (W2, T2, None) -> t_ws T1 = Some ws -> t_ws T2 = Some vs ->
  forall t w v w0 v0, (t < size (t_times T))%N -> (t < size (t_times T'))%N -> nth None ws t = Some (w, w0) -> nth None vs t = Some (v, v0) ->
  let S := nth 0 (t_Sigmas T) t in let S' := nth 0 (t_Sigmas T') t in
  (forall i j, (Rabs (S i j - S' i j) <= e)%re) ->
  (qf S w <= qf S v <= qf S w + 2 * e * (L * L))%re /\
  (forall lam, (0 < lam)%re -> (forall x : 'cV[R]_n, (lam * (\sum_i x i 0 * x i 0)%R <= qf S x)%re) ->
    ((\sum_i (v i 0 - w i 0) * (v i 0 - w i 0))%R <= INR n * ((e * L / lam) * (e * L / lam)))%re).
Proof. exact two_backtests_sum. Qed.
Print Assumptions C145_backtests.
