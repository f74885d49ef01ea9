(** * C45, C54, C82-C88: backtests over several predictors (experiments/utils/portfolio_backtests.py), in exact arithmetic.

    [new_backtest] is the constructor of PortfolioBacktest, [run_backtest solve W B k] the method backtest of its
    subclasses (k: which one, with its arguments): the state of the process afterwards and the traders by name, or an
    exception.  [solve] is the convex solver as in PropTrader.v. *)
From Coq Require Import Reals ZArith String List.
Set Warnings "-notation-overridden,-ambiguous-paths".
From mathcomp Require Import all_ssreflect all_algebra.
From Verif Require Import RStruct MatR Num Py Spec Combination Trader SpecTrader Backtests SpecBt BacktestProps BacktestMain BacktestKinds BtLook BacktestFinal.
Set Implicit Arguments.
Unset Strict Implicit.
Unset Printing Implicit Defensive.
Import GRing.Theory.
Local Open Scope ring_scope.
Delimit Scope R_scope with re.
Delimit Scope Z_scope with z.

(** ** C45: the forecast issued at t meets the return of the next row. *)
(** What _get_causal returns: exactly the traded dates, in order, each with its next return; the forecasts issued at them. *)
Theorem C45_causal : forall n (f : rframe n) Sg a b mus rt St mt, good_frame f -> get_causal f Sg a b mus = Ok (rt, St, mt) ->
  increasing rt.1.1 /\ rt.1.2 = f.1.2 /\ size rt.2 = size rt.1.1 /\ (forall t r, List.In (t, r) (zip rt.1.1 rt.2) <-> traded f a b t r) /\
  map fst St = rt.1.1 /\ (forall t S, List.In (t, S) St -> dict_get Z.eqb Sg t = Some S) /\
  match mus, mt with
  | None, None => True
  | Some m, Some g => g.1.1 = rt.1.1 /\ size g.2 = size rt.1.1 /\ (rt.1.1 <> [::] -> g.1.2 = m.1.2) /\ forall t r, List.In (t, r) (zip g.1.1 g.2) -> dict_get Z.eqb (zip m.1.1 m.2) t = Some r
  | _, _ => False
  end.
Proof. exact causal_main. Qed.
Print Assumptions C45_causal.
(** Without missing returns: all rows of the window but the last keep their date, all but the first are earned. *)
Theorem C45_shift : forall n (f : rframe n) Sg a b mus rt St mt, good_frame f -> (forall q i, List.In q f.2 -> q i 0 <> None) ->
  get_causal f Sg a b mus = Ok (rt, St, mt) ->
  let w := [seq r <- zip f.1.1 f.2 | Z.leb a r.1 && Z.leb r.1 b] in
  rt.1.1 = take (size w).-1 (map fst w) /\ map (fun r : 'cV[R]_n => \col_i Some (r i 0)) rt.2 = behead (map snd w).
Proof. exact causal_shift. Qed.
Print Assumptions C45_shift.
(** It succeeds if every traded date has a forecast, and only then. *)
Theorem C45_total : forall n (f : rframe n) Sg a b, good_frame f -> (forall t r, traded f a b t r -> dict_get Z.eqb Sg t <> None) ->
  exists rt St, get_causal f Sg a b None = Ok (rt, St, None).
Proof. exact causal_total. Qed.
Print Assumptions C45_total.
Theorem C45_missing : forall n (f : rframe n) Sg a b mus t r, good_frame f -> traded f a b t r -> dict_get Z.eqb Sg t = None ->
  get_causal f Sg a b mus = Raise KeyError.
Proof. exact causal_missing. Qed.
Print Assumptions C45_missing.

(** ** C82: one missing forecast of one predictor and there is no result for any of them. *)
Theorem C82_all_or_nothing : forall n (solve : solver_t n) B k W i Sg t r, good_frame (b_returns B) -> List.nth_error (b_covs B) i = Some Sg ->
  traded (b_returns B) (b_start B) (b_end B) t r -> dict_get Z.eqb Sg t = None -> forall d, (run_backtest solve W B k).2 <> Ok d.
Proof. exact missing_main. Qed.
Print Assumptions C82_all_or_nothing.

(** ** C83: the minimum-risk backtest. *)
Theorem C83_min_risk : forall n (solve : solver_t n) W B l, solve_ok solve -> (forall f P, solve f P <> Failed n) -> well_formed W -> consistent W 0 ->
  (exists w : 'cV[R]_n, portfolio l w) -> good_frame (b_returns B) -> good_names B -> all_covered B ->
  exists W' d, run_backtest solve W B (KMinRisk n l) = (W', Ok d) /\ (well_formed W' /\ consistent W' 0) /\
    results B d (fun _ _ S => plain (minimiser (vol S) (portfolio l))).
Proof. exact min_main. Qed.
Print Assumptions C83_min_risk.

(** ** C84: no look-ahead.  Two minimum-risk backtests, of different predictors, returns, windows, in different processes:
    where the forecasts issued at a date agree, so do the weights of that date. *)
Theorem C84_no_look_ahead : forall n (solve1 solve2 : solver_t n) W1 W2 W1' W2' l B1 B2 d1 d2 i1 i2 Sg1 Sg2 name1 name2 T1 T2 j1 j2 t,
  solve_ok solve1 -> solve_ok solve2 -> (forall f P, solve1 f P <> Failed n) -> (forall f P, solve2 f P <> Failed n) ->
  well_formed W1 /\ consistent W1 0 -> well_formed W2 /\ consistent W2 0 -> (exists w : 'cV[R]_n, portfolio l w) ->
  good_frame (b_returns B1) /\ good_names B1 /\ all_covered B1 -> good_frame (b_returns B2) /\ good_names B2 /\ all_covered B2 ->
  run_backtest solve1 W1 B1 (KMinRisk n l) = (W1', Ok d1) -> run_backtest solve2 W2 B2 (KMinRisk n l) = (W2', Ok d2) ->
  List.nth_error (b_covs B1) i1 = Some Sg1 -> List.nth_error (b_covs B2) i2 = Some Sg2 ->
  List.nth_error (b_names B1) i1 = Some name1 -> List.nth_error (b_names B2) i2 = Some name2 ->
  dict_get String.eqb d1 name1 = Some T1 -> dict_get String.eqb d2 name2 = Some T2 ->
  List.nth_error (t_times T1) j1 = Some t -> List.nth_error (t_times T2) j2 = Some t ->
  dict_get Z.eqb Sg1 t = dict_get Z.eqb Sg2 t ->
  exists u, (exists ws, t_ws T1 = Some ws /\ List.nth_error ws j1 = Some (Some (u, [::]))) /\ exists ws, t_ws T2 = Some ws /\ List.nth_error ws j2 = Some (Some (u, [::])).
Proof. exact no_look_ahead_run. Qed.
Print Assumptions C84_no_look_ahead.

(** The same for equal weights, risk parity and maximum diversification; the constraint lists and everything done before play
    no role. *)
Theorem C84_other_strategies : forall n (solve1 solve2 : solver_t n) W1 W2 W1' W2' k B1 B2 d1 d2 i1 i2 Sg1 Sg2 name1 name2 T1 T2 j1 j2 t,
  solve_ok solve1 -> solve_ok solve2 -> (forall f P, solve1 f P <> Failed n) -> (forall f P, solve2 f P <> Failed n) ->
  match k with
  | KEqWeighted => True | KRiskParity => True
  | KMaxDiverse l => exists M, upper_bound l = Some M /\ exists w : 'cV[R]_n, long_cap M w
  | _ => False
  end ->
  good_frame (b_returns B1) /\ good_names B1 /\ all_covered B1 -> good_frame (b_returns B2) /\ good_names B2 /\ all_covered B2 ->
  run_backtest solve1 W1 B1 k = (W1', Ok d1) -> run_backtest solve2 W2 B2 k = (W2', Ok d2) ->
  List.nth_error (b_covs B1) i1 = Some Sg1 -> List.nth_error (b_covs B2) i2 = Some Sg2 ->
  List.nth_error (b_names B1) i1 = Some name1 -> List.nth_error (b_names B2) i2 = Some name2 ->
  dict_get String.eqb d1 name1 = Some T1 -> dict_get String.eqb d2 name2 = Some T2 ->
  List.nth_error (t_times T1) j1 = Some t -> List.nth_error (t_times T2) j2 = Some t ->
  dict_get Z.eqb Sg1 t = dict_get Z.eqb Sg2 t ->
  exists u, (exists ws, t_ws T1 = Some ws /\ List.nth_error ws j1 = Some (Some (u, [::]))) /\ exists ws, t_ws T2 = Some ws /\ List.nth_error ws j2 = Some (Some (u, [::])).
Proof. exact look_run. Qed.
Print Assumptions C84_other_strategies.

(** ** C85: the other strategies. *)
Theorem C85_eq_weighted : forall n (solve : solver_t n) W B, good_frame (b_returns B) -> good_names B -> all_covered B ->
  exists d, run_backtest solve W B (KEqWeighted n) = (W, Ok d) /\ results B d (fun _ _ _ => plain (fun u => forall i, u i ord0 = (/ INR n)%re)).
Proof. exact eq_main. Qed.
Print Assumptions C85_eq_weighted.
Theorem C85_max_diverse : forall n (solve : solver_t n) W B l M, solve_ok solve -> (forall f P, solve f P <> Failed n) ->
  upper_bound l = Some M -> (exists w : 'cV[R]_n, long_cap M w) -> good_frame (b_returns B) -> good_names B -> all_covered B ->
  exists W' d, run_backtest solve W B (KMaxDiverse n l) = (W', Ok d) /\ w_lists W' = w_lists W /\
    results B d (fun _ _ S => plain (fun u => long_cap M u /\ forall u', long_cap M u' -> Rle (div_ratio S u') (div_ratio S u))).
Proof. exact md_bt_main. Qed.
Print Assumptions C85_max_diverse.
Theorem C85_risk_parity : forall n (solve : solver_t n) W B, solve_ok solve -> (forall f P, solve f P <> Failed n) -> good_frame (b_returns B) -> good_names B -> all_covered B ->
  exists W' d, run_backtest solve W B (KRiskParity n) = (W', Ok d) /\ w_lists W' = w_lists W /\ results B d (fun _ _ S => plain (risk_parity S)).
Proof. exact rp_bt_main. Qed.
Print Assumptions C85_risk_parity.
(** Mean-variance: predictor i with its own mean forecasts; risk limit sd per year; penalties rho if given. *)
Theorem C85_mean_variance : forall n (solve : solver_t n) W B l sd rhos, solve_ok solve -> (forall f P, solve f P <> Failed n) -> well_formed W -> consistent W 0 ->
  good_frame (b_returns B) -> good_names B -> all_covered B ->
  (forall i Sg, List.nth_error (b_covs B) i = Some Sg -> exists m, mean_of B i = Some m /\ means_cover (b_returns B) m (b_start B) (b_end B)) ->
  (forall i Sg t r S, List.nth_error (b_covs B) i = Some Sg -> traded (b_returns B) (b_start B) (b_end B) t r -> dict_get Z.eqb Sg t = Some S -> exists u, mv_portfolio l S sd u) ->
  (forall t r, traded (b_returns B) (b_start B) (b_end B) t r -> exists rho, rho_of rhos t = Some rho /\ forall i, Rle 0 (rho i ord0)) ->
  exists W' d, run_backtest solve W B (KMeanVariance l (Some sd) rhos) = (W', Ok d) /\ (well_formed W' /\ consistent W' 0) /\
    results B d (fun i t S w => exists m r rho u, mean_of B i = Some m /\ dict_get Z.eqb (zip m.1.1 m.2) t = Some r /\ rho_of rhos t = Some rho /\
      w = Some (u.1, [:: u.2]) /\ minimiser (fun u => (- mv_value r rho u)%re) (mv_portfolio l S sd) u).
Proof. exact mv_bt_main. Qed.
Print Assumptions C85_mean_variance.

(** ** C86: the constructor checks the given window, and takes the default one, from the last predictor only. *)
Theorem C86_constructor : forall n returns covs names means s e B, new_backtest (n := n) returns covs names means s e = Ok B <->
  (forall Sg t, List.In Sg covs -> List.In t (map fst Sg) -> List.In t returns.1.1) /\
  exists covs' c, covs = rcons covs' c /\
    (forall ms m t, means = Some ms -> List.In m ms -> List.In t (map fst c) -> List.In t m.1.1) /\
    (forall t, s = Some t -> List.In t (map fst c)) /\ (forall t, e = Some t -> List.In t (map fst c)) /\
    exists t0 t1, (forall t, s = Some t -> t0 = t) /\ (s = None -> List.hd_error (map fst c) = Some t0) /\
      (forall t, e = Some t -> t1 = t) /\ (e = None -> List.hd_error (rev (map fst c)) = Some t1) /\
      B = mkPbt returns covs means names t0 t1.
Proof. exact construct_main. Qed.
Print Assumptions C86_constructor.
Theorem C86_no_predictors : forall n returns names means s e, new_backtest (n := n) returns [::] names means s e = Raise UnboundLocalError.
Proof. exact construct_empty. Qed.
Print Assumptions C86_no_predictors.

(** ** C54: the line of PRESCIENT is printed last, but under the name of the last entry of the dictionary. *)
Theorem C54_last_label : forall (ms : seq (string * metrics)) m, dict_get String.eqb ms "PRESCIENT"%string = Some m ->
  exists last_name, List.hd_error (rev (map fst ms)) = Some last_name /\
  table_helper ms true = (LBegin :: [seq pct_line kv.1 kv.2 | kv <- ms & ~~ String.eqb kv.1 "PRESCIENT"] ++ [:: LHline; pct_line last_name m; LEnd], None).
Proof. exact table_main. Qed.
Print Assumptions C54_last_label.

(** ** C87: create_table evaluates every trader, in order, diluted to sigma_tar if that is given and not 0.  With
    prescient = False it prints all lines but that of PRESCIENT; with prescient = True it ends normally exactly if there is a
    trader of that name (and then prints what C54 says). *)
Theorem C87_table : forall n (traders : seq (string * trader n)) sigma_tar sigma rf ex res, (forall s, sigma = Some s <-> sigma_tar = Some s /\ s <> 0%re) ->
  List.Forall2 (fun (x : string * trader n) (y : trader n * metrics) =>
    get_metrics x.2 (isSome sigma) sigma rf ex = (y.1, Ok y.2)) traders res ->
  let ms := zip (map fst traders) (map snd res) in
  (forall p, create_table traders sigma_tar rf ex p = (zip (map fst traders) (map fst res), table_helper ms p)) /\
  table_helper ms false = (LBegin :: [seq pct_line kv.1 kv.2 | kv <- ms & ~~ String.eqb kv.1 "PRESCIENT"] ++ [:: LHline; LEnd], None) /\
  (List.In "PRESCIENT"%string (map fst traders) <-> (table_helper ms true).2 = None).
Proof. exact metrics_loop. Qed.
Print Assumptions C87_table.

(** ** C88: the weights chosen at t earn the return of the next date (all strategies without cash). *)
Theorem C88_earned : forall n (solve : solver_t n) W W' B k d ok i Sg name T sd rf, run_backtest solve W B k = (W', Ok d) -> (if k is KMeanVariance _ _ _ then False else True) ->
  results B d ok -> (forall i t S w, ok i t S w -> plain (fun _ => True) w) ->
  List.nth_error (b_covs B) i = Some Sg -> List.nth_error (b_names B) i = Some name -> dict_get String.eqb d name = Some T ->
  (forall l, rf = Some l -> (size (t_times T) <= size l)%N) ->
  exists rets ws, get_total_returns T false sd rf = (set_rets rets T, None) /\ t_ws T = Some ws /\ size rets = size (t_times T) /\
    forall j t, List.nth_error (t_times T) j = Some t -> exists u r, List.nth_error ws j = Some (Some (u, [::])) /\
      traded (b_returns B) (b_start B) (b_end B) t r /\ nth R0 rets j = \sum_i u i 0 * r i 0.
Proof. exact earned_run. Qed.
Print Assumptions C88_earned.
