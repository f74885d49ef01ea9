(** * Vocabulary for the properties of trading_model.py. *)
From Coq Require Import Reals ZArith String List.
Set Warnings "-notation-overridden,-ambiguous-paths".
From mathcomp Require Import all_ssreflect all_algebra.
From Verif Require Import RStruct MatR Num Py Trader.
Set Implicit Arguments.
Unset Strict Implicit.
Unset Printing Implicit Defensive.
Import GRing.Theory.
Local Open Scope ring_scope.
Delimit Scope R_scope with re.

(** The contract of prob.solve(): what it returns is a minimiser over the feasible points; it reports "no solution" only
    if there is no minimiser. *)
Definition minimiser {A} (f : A -> R) (P : A -> Prop) (x : A) : Prop := P x /\ forall y, P y -> Rle (f x) (f y).
Definition solve_ok n (solve : solver_t n) : Prop := forall f P,
  match solve f P with Solved v => minimiser f P v | NotSolved => ~ exists v, minimiser f P v | Failed => True end.

(** Predicted volatility of weights w under the covariance S, per period. *)
Definition vol n (S : 'M[R]_n) (w : 'cV[R]_n) : R := sqrt (qf S w).

(** The default of additonal_cons (trading_model.py:252). *)
Definition default_limits : limits := mkLimits (Some (16 / 10)%re) (Some (15 / 100)%re) (Some (- (1 / 10))%re).

(** A fully invested portfolio within the limits. *)
Definition within n (l : limits) (w : 'cV[R]_n) : Prop :=
  (forall b, short_lim l = Some b -> Rle (\sum_i Rabs (w i 0))%R b) /\
  (forall b, upper_bound l = Some b -> forall i, Rle (w i 0%R) b) /\
  (forall b, lower_bound l = Some b -> forall i, Rle b (w i 0%R)).
Definition portfolio n (l : limits) (w : 'cV[R]_n) : Prop := \sum_i w i 0 = 1 /\ within l w.

(** With cash: u = (weights, cash).  Budget, annual risk limit and other limits; expected return less the penalty. *)
Definition mv_portfolio n (l : limits) (S : 'M[R]_n) (b : R) (u : 'cV[R]_n * R) : Prop :=
  (\sum_i u.1 i 0) + u.2 = 1 /\ Rle (sqrt 252 * vol S u.1)%re b /\ within l u.1.
Definition mv_value n (r rho : 'cV[R]_n) (u : 'cV[R]_n * R) : R :=
  (\sum_i r i 0 * u.1 i 0) - (\sum_i rho i 0 * Rabs (u.1 i 0)).
(** Robust risk with volatility vector s. *)
Definition robust_risk n (S : 'M[R]_n) (k : R) (s w : 'cV[R]_n) : R :=
  (vol S w + k * ((\sum_i s i 0%R * Rabs (w i 0%R))%R * (\sum_i s i 0%R * Rabs (w i 0%R))%R))%re.

(** Long-only, fully invested, at most M in one asset; the diversification ratio. *)
Definition long_cap n (M : R) (w : 'cV[R]_n) : Prop := (forall i, Rle 0 (w i ord0)) /\ \sum_i w i 0 = 1 /\ (forall i, Rle (w i ord0) M).
Definition div_ratio n (S : 'M[R]_n) (w : 'cV[R]_n) : R := ((\sum_i sqrt (S i i) * w i 0)%R / vol S w)%re.
(** Long-only, fully invested, every asset contributes the same part w_i (S w)_i of the variance. *)
Definition risk_parity n (S : 'M[R]_n) (w : 'cV[R]_n) : Prop :=
  (forall i, Rlt 0 (w i ord0)) /\ \sum_i w i 0 = 1 /\ (forall i, w i 0 * (S *m w) i 0 = (qf S w / INR n)%re).

(** The largest relative fall from an earlier value. *)
Definition fall (Vs : seq R) (s t : nat) : R := ((nth R0 Vs s - nth R0 Vs t) / nth R0 Vs s)%re.
Definition is_max_drawdown (Vs : seq R) (dd : R) : Prop :=
  (exists s t, (s <= t < size Vs)%N /\ dd = fall Vs s t) /\
  (forall s t, (s <= t < size Vs)%N -> Rle (fall Vs s t) dd).

(** Sum of all entries of a row of weights. *)
Definition row_sum n (w : 'cV[R]_n * seq R) : R := \sum_i w.1 i 0 + \sum_(c <- w.2) c.

(** The return of a day: assets and cash, the latter at the risk-free rate (0 if none is given). *)
Definition rf_at (rf : option (seq R)) (t : nat) : R := if rf is Some l then nth R0 l t else 0.
Definition day_return n (w : 'cV[R]_n * seq R) (r : 'cV[R]_n) (rf : R) : R := \sum_i w.1 i 0 * r i 0 + (\sum_(c <- w.2) c) * rf.
Definition returns_of n (ws : seq ('cV[R]_n * seq R)) (rows : seq 'cV[R]_n) (rf : option (seq R)) : seq R :=
  [seq day_return (nth (0, [::]) ws t) (nth 0 rows t) (rf_at rf t) | t <- iota 0 (size rows)].

(** Mean and (population) standard deviation. *)
Definition mean (l : seq R) : R := ((\sum_(x <- l) x)%R / INR (size l))%re.
Definition std (l : seq R) : R := sqrt ((\sum_(x <- l) x * x)%R / INR (size l) - mean l * mean l)%re.

(** What a user can do with a trader, in any order; exceptions are caught by the user. *)
Inductive op n :=
| OpBacktest (a : bt_args n) | OpMetrics (diluted : bool) (sigma_des : option R) (rf : option (seq R)) (excess : bool)
| OpDilute (sigma_des : R) | OpRiskAdj (sigma_des : R).
Definition do_op n (solve : solver_t n) (s : world n * trader n) (o : op n) : world n * trader n :=
  match o with
  | OpBacktest a => (backtest solve s.1 s.2 a).1
  | OpMetrics d sd rf ex => (s.1, (get_metrics s.2 d sd rf ex).1)
  | OpDilute sd => (s.1, (dilute_with_cash s.2 sd).1)
  | OpRiskAdj sd => (s.1, (get_risk_adj_returns s.2 sd).1)
  end.
Definition history n (solve : solver_t n) (s : world n * trader n) (ops : seq (op n)) : world n * trader n :=
  foldl (do_op solve) s ops.

(** Calls of backtest on any traders, one after the other, in one process. *)
Definition calls n (solve : solver_t n) (W : world n) (l : seq (trader n * bt_args n)) : world n :=
  foldl (fun W c => (backtest solve W c.1 c.2).1.1) W l.

(** Objects mentioned by the constraints in a list have been created before. *)
Definition same_below n (x : nat) (v v' : val n) : Prop := forall y, (y < x)%N -> v y = v' y.
Definition env_below n (x : nat) (e e' : penv n) : Prop := forall y, (y < x)%N -> p_mat e y = p_mat e' y /\ p_vec e y = p_vec e' y.
Definition con_below n (x : nat) (c : con n) : Prop := forall e e' v v', env_below x e e' -> same_below x v v' -> c e v -> c e' v'.
Definition well_formed n (W : world n) : Prop := forall r c, List.In c (w_lists W r) -> con_below (w_next W) c.
(** A new process. *)
Definition fresh_world n : world n := mkWorld (fun _ => [::]) 0 (mkPenv (fun _ => 0) (fun _ => 0)).
(** Some values of those objects satisfy all constraints in list r, the parameters having their values in the main
    process. *)
Definition consistent n (W : world n) (r : nat) : Prop := exists v, all_hold (w_lists W r) (w_env W) v.

(** A trader built by the constructor from positive definite forecasts (and any later use). *)
Definition trader_ok n (T : trader n) : Prop :=
  size (t_Sigmas T) = size (t_times T) /\ size (t_returns T) = size (t_times T) /\ (0 < size (t_times T))%N /\
  (forall r, t_rhats T = Some r -> size r = size (t_times T)) /\
  (forall S, S \in t_Sigmas T -> spd S) /\
  t_sigma_hats T = [seq \col_i sqrt (S i i) | S : 'M[R]_n <- t_Sigmas T] /\
  mapM (@get_L_inv n) (t_Sigmas T) = Ok (t_L_inv T).
