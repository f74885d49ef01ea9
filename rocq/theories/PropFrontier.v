(** * C148: the efficient frontier (experiments/utils/trading_model.py: mean_variance and min_risk backtests), in exact arithmetic.

    Vocabulary: SpecTrader.v, SpecFrontier.v.  Expected return is net of the penalty rho |w|, rho >= 0. *)
From Coq Require Import Reals ZArith String List.
Set Warnings "-notation-overridden,-ambiguous-paths".
From mathcomp Require Import all_ssreflect all_algebra.
From Verif Require Import RStruct MatR Num Py Trader SpecTrader SpecFrontier TraderFrontier.
Set Implicit Arguments.
Unset Strict Implicit.
Unset Printing Implicit Defensive.
Import GRing.Theory.
Local Open Scope ring_scope.
Delimit Scope R_scope with re.

(** A larger risk limit never lowers the expected return. *)
Theorem C148_monotone : forall n l (S : 'M[R]_n) (r rho : 'cV[R]_n) b b' u u', (b <= b')%re ->
  mv_best r rho l S b u -> mv_best r rho l S b' u' -> (mv_value r rho u <= mv_value r rho u')%re.
Proof. exact frontier_mono. Qed.
Print Assumptions C148_monotone.
(** Diminishing returns to risk: at a risk limit between two others the expected return is at least the one interpolated. *)
Theorem C148_concave : forall n l (S : 'M[R]_n) (r rho : 'cV[R]_n) b1 b2 t u1 u2 u, spd S -> (forall i, Rle 0 (rho i ord0)) -> (0 <= t <= 1)%re ->
  mv_best r rho l S b1 u1 -> mv_best r rho l S b2 u2 -> mv_best r rho l S ((1 - t) * b1 + t * b2)%re u ->
  ((1 - t) * mv_value r rho u1 + t * mv_value r rho u2 <= mv_value r rho u)%re.
Proof. exact (fun n l S r rho b1 b2 t u1 u2 u H1 H2 H3 H4 H5 H6 => frontier_concave H1 H2 H3 (proj1 H4) (proj1 H5) H6). Qed.
Print Assumptions C148_concave.
(** Looser limits never lower the expected return, and never raise the least risk. *)
Theorem C148_limits_return : forall n l l' (S : 'M[R]_n) (r rho : 'cV[R]_n) b u u', looser l l' -> mv_best r rho l S b u -> mv_best r rho l' S b u' ->
  (mv_value r rho u <= mv_value r rho u')%re.
Proof. exact mv_looser_limits. Qed.
Print Assumptions C148_limits_return.
Theorem C148_limits_risk : forall n l l' (S : 'M[R]_n) w w', looser l l' -> minimiser (vol S) (portfolio l) w -> minimiser (vol S) (portfolio l') w' -> (vol S w' <= vol S w)%re.
Proof. exact min_looser. Qed.
Print Assumptions C148_limits_risk.
(** Averaging two forecasts: the least variance under the average is at least the average of the least variances. *)
Theorem C148_average_forecast : forall n l (S1 S2 : 'M[R]_n) t w1 w2 w, spd S1 -> spd S2 -> (0 <= t <= 1)%re ->
  minimiser (vol S1) (portfolio l) w1 -> minimiser (vol S2) (portfolio l) w2 -> minimiser (vol ((1 - t)%re *: S1 + t *: S2)) (portfolio l) w ->
  ((1 - t) * qf S1 w1 + t * qf S2 w2 <= qf ((1 - t)%re *: S1 + t *: S2) w)%re.
Proof. exact (fun n l S1 S2 t w1 w2 w H1 H2 H3 H4 H5 H6 => min_average H1 H2 H3 H4 H5 (proj1 H6)). Qed.
Print Assumptions C148_average_forecast.
(** Three mean_variance backtests of one trader, in any processes, with target risks b1, b2 and one between them: on every day on
    which the first two have weights the third has too, and its reported objective is at least the one interpolated. *)
Theorem C148_backtests : forall n (T : trader n) rh l af, trader_ok T -> t_rhats T = Some rh ->
  forall s1 s2 s3 W1 W2 W3 a1 a2 a3 b1 b2 ob1 ob2 t U1 U2 U3 X1 X2 X3, (0 <= t <= 1)%re ->
  mv_call T l af s1 W1 a1 b1 U1 X1 -> mv_call T l af s2 W2 a2 b2 U2 X2 -> mv_call T l af s3 W3 a3 ((1 - t) * b1 + t * b2)%re U3 X3 ->
  forall ws1 ws2, t_ws X1 = Some ws1 -> t_ws X2 = Some ws2 -> t_obj X1 = Some ob1 -> t_obj X2 = Some ob2 ->
  exists ws3 ob3, t_ws X3 = Some ws3 /\ t_obj X3 = Some ob3 /\ forall d, (d < size (t_times T))%N -> nth None ws1 d <> None -> nth None ws2 d <> None ->
    nth None ws3 d <> None /\ ((1 - t) * nth R0 ob1 d + t * nth R0 ob2 d <= nth R0 ob3 d)%re.
Proof. exact three. Qed.
Print Assumptions C148_backtests.
