(** * Model of experiments/utils/trading_model.py in exact arithmetic, function by function.

    Not modelled: construct_rho, printing, the process pool (starmap maps a function over the days in order; every
    worker gets a copy of the problem, so a worker's assignments to parameters are not seen by the others).  All
    traders of a history trade the same number n of assets. *)
From Coq Require Import Reals ZArith String List.
Set Warnings "-notation-overridden,-ambiguous-paths".
From mathcomp Require Import all_ssreflect all_algebra.
From Verif Require Import RStruct MatR Num Py Combination.
Set Implicit Arguments.
Unset Strict Implicit.
Unset Printing Implicit Defensive.
Import GRing.Theory.
Local Open Scope ring_scope.
Delimit Scope R_scope with re.

Definition rmean (l : seq R) : R := ((\sum_(x <- l) x)%R / INR (size l))%re.
(** np.std *)
Definition rstd (l : seq R) : R := sqrt (rmean [seq (x - rmean l) * (x - rmean l) | x <- l]).

Section Trader.
  Context (n : nat).
  Notation vec := 'cV[R]_n.

  (** ** cvxpy problems.

      Variables and parameters are objects; they are named by numbers here.  A variable has n entries and, if declared
      with shape (n+1, 1), one more for cash. *)
  Definition val := nat -> vec * R.
  Record penv := mkPenv { p_mat : nat -> 'M[R]_n; p_vec : nat -> vec }.
  Definition con := penv -> val -> Prop.
  Definition obj := penv -> val -> R.
  Definition set_mat (e : penv) (p : nat) (A : 'M[R]_n) : penv :=
    mkPenv (fun q => if (q == p)%N then A else p_mat e q) (p_vec e).
  Definition set_vec (e : penv) (p : nat) (x : vec) : penv :=
    mkPenv (p_mat e) (fun q => if (q == p)%N then x else p_vec e q).

  (** prob.solve(): a minimiser, no solution (infeasible or unbounded: the variables get the value None) or a
      cp.SolverError.  Contract: [solve_ok] in SpecTrader.v. *)
  Inductive sol := Solved (v : val) | NotSolved | Failed.
  Definition solver_t := (val -> R) -> (val -> Prop) -> sol.
  Definition all_hold (cons : seq con) (e : penv) (v : val) : Prop := List.Forall (fun c : con => c e v) cons.
  Definition prob_solve (solve : solver_t) (f : obj) (cons : seq con) (e : penv) : sol := solve (f e) (all_hold cons e).

  (** trading_model.py:312-332, 403-412, 469.: cp.sum(w) == 1, cp.norm(w, 1) <= b, w <= b, w >= b; [cash]: w has n+1 entries (the
      bounds apply to w[:-1]). *)
  Definition total (cash : bool) (w : vec * R) : R := (\sum_i w.1 i 0) + (if cash then w.2 else 0).
  Definition c_budget (cash : bool) (x : nat) : con := fun _ v => total cash (v x) = 1.
  Definition c_short (x : nat) (b : R) : con := fun _ v => Rle (\sum_i Rabs ((v x).1 i 0))%R b.
  Definition c_upper (x : nat) (b : R) : con := fun _ v => forall i, Rle ((v x).1 i 0%R) b.
  Definition c_lower (x : nat) (b : R) : con := fun _ v => forall i, Rle b ((v x).1 i 0%R).

  (** cp.norm2(cp.sum(cp.multiply(L_inv_param, w.T), axis=1)): the norm of L_inv w. *)
  Definition risk (L : 'M[R]_n) (w : vec) : R := sqrt (\sum_i ((L *m w) i 0 * (L *m w) i 0))%R.
  Definition dotp (a b : vec) : R := \sum_i a i 0 * b i 0.
  Definition absv (w : vec) : vec := \col_i Rabs (w i 0).

  (** The dictionary additonal_cons (the default is {"short_lim": 1.6, "upper_bound": 0.15, "lower_bound": -0.1}). *)
  Record limits := mkLimits { short_lim : option R; upper_bound : option R; lower_bound : option R }.
  Definition opt_con (o : option R) (c : R -> con) : seq con := if o is Some b then [:: c b] else [::].
  Definition limit_cons (l : limits) (x : nat) : seq con :=
    opt_con (short_lim l) (c_short x) ++ opt_con (upper_bound l) (c_upper x) ++ opt_con (lower_bound l) (c_lower x).

  (** ** Process-wide state: constraint lists are mutable objects named by numbers, number 0 is the default argument
      [cons=[]] of Trader.backtest (trading_model.py:249), shared by all calls; [w_next] is the next unused name of a
      variable or parameter; [w_env] the values of the parameters in the main process. *)
  Record world := mkWorld { w_lists : nat -> seq con; w_next : nat; w_env : penv }.
  Definition extend (W : world) (r : nat) (cs : seq con) : world :=
    mkWorld (fun q => if (q == r)%N then w_lists W q ++ cs else w_lists W q) (w_next W) (w_env W).
  Definition with_env (W : world) (e : penv) : world := mkWorld (w_lists W) (w_next W) e.
  Definition take_names (W : world) (k : nat) : world := mkWorld (w_lists W) (w_next W + k) (w_env W).

  (** ** Trader objects. *)
  Inductive ptype := EqWeighted | MinRisk | VolCont | RobustMinRisk | MeanVariance | MaxDiverse | RiskParity | MaxSharpe | OtherType.

  (** A row of weights: the n assets and the entries after them (cash).  None: the solver gave None. *)
  Definition wrow := option (vec * seq R).
  Record trader := mkTrader {
    t_times : seq Z; t_returns : seq vec; t_Sigmas : seq 'M[R]_n; t_rhats : option (seq vec);
    t_sigma_hats : seq vec; t_L_inv : seq 'M[R]_n;
    t_diluted : bool;
    t_type : option ptype; t_adjust : R; t_speedup : bool;
    t_ws : option (seq wrow); t_ws_diluted : option (seq (vec * seq R));
    t_obj : option (seq R); t_rets : option (seq R); t_rets_adj : option (seq R); t_Vs : option (seq R)
  }.
  Definition set_diluted (b : bool) (T : trader) : trader :=
    mkTrader (t_times T) (t_returns T) (t_Sigmas T) (t_rhats T) (t_sigma_hats T) (t_L_inv T) b (t_type T) (t_adjust T)
      (t_speedup T) (t_ws T) (t_ws_diluted T) (t_obj T) (t_rets T) (t_rets_adj T) (t_Vs T).
  Definition set_call (p : ptype) (af : R) (sp : bool) (T : trader) : trader :=
    mkTrader (t_times T) (t_returns T) (t_Sigmas T) (t_rhats T) (t_sigma_hats T) (t_L_inv T) (t_diluted T) (Some p) af
      sp (t_ws T) (t_ws_diluted T) (t_obj T) (t_rets T) (t_rets_adj T) (t_Vs T).
  Definition set_ws (ws : seq wrow) (T : trader) : trader :=
    mkTrader (t_times T) (t_returns T) (t_Sigmas T) (t_rhats T) (t_sigma_hats T) (t_L_inv T) (t_diluted T) (t_type T)
      (t_adjust T) (t_speedup T) (Some ws) (t_ws_diluted T) (t_obj T) (t_rets T) (t_rets_adj T) (t_Vs T).
  Definition set_obj (o : seq R) (T : trader) : trader :=
    mkTrader (t_times T) (t_returns T) (t_Sigmas T) (t_rhats T) (t_sigma_hats T) (t_L_inv T) (t_diluted T) (t_type T)
      (t_adjust T) (t_speedup T) (t_ws T) (t_ws_diluted T) (Some o) (t_rets T) (t_rets_adj T) (t_Vs T).
  Definition set_ws_diluted (ws : seq (vec * seq R)) (T : trader) : trader :=
    mkTrader (t_times T) (t_returns T) (t_Sigmas T) (t_rhats T) (t_sigma_hats T) (t_L_inv T) true (t_type T)
      (t_adjust T) (t_speedup T) (t_ws T) (Some ws) (t_obj T) (t_rets T) (t_rets_adj T) (t_Vs T).
  Definition set_rets (r : seq R) (T : trader) : trader :=
    mkTrader (t_times T) (t_returns T) (t_Sigmas T) (t_rhats T) (t_sigma_hats T) (t_L_inv T) (t_diluted T) (t_type T)
      (t_adjust T) (t_speedup T) (t_ws T) (t_ws_diluted T) (t_obj T) (Some r) (t_rets_adj T) (t_Vs T).
  Definition set_rets_adj (r : seq R) (T : trader) : trader :=
    mkTrader (t_times T) (t_returns T) (t_Sigmas T) (t_rhats T) (t_sigma_hats T) (t_L_inv T) (t_diluted T) (t_type T)
      (t_adjust T) (t_speedup T) (t_ws T) (t_ws_diluted T) (t_obj T) (t_rets T) (Some r) (t_Vs T).
  Definition set_Vs (r : seq R) (T : trader) : trader :=
    mkTrader (t_times T) (t_returns T) (t_Sigmas T) (t_rhats T) (t_sigma_hats T) (t_L_inv T) (t_diluted T) (t_type T)
      (t_adjust T) (t_speedup T) (t_ws T) (t_ws_diluted T) (t_obj T) (t_rets T) (t_rets_adj T) (Some r).

  (** trading_model.py:11-13, _get_L_inv. *)
  Definition np_inv (A : 'M[R]_n) : res 'M[R]_n := if A \in unitmx then Ok (invmx A) else Raise LinAlgError.
  Definition get_L_inv (S : 'M[R]_n) : res 'M[R]_n :=
    do Theta <- np_inv S; do L <- or_raise (chol Theta) LinAlgError; np_inv L.

  (** trading_model.py:32-76, Trader.__init__.  [returns]: (index, columns, rows); [Sigma_hats]: dictionary by time;
      [r_hats]: (index, columns, rows); [rhos]: is the argument given (line 60 then reads self.rhos, which no code has
      set).  No rows: pd.DataFrame of an empty array fails (ValueError). *)
  Definition frame := (seq Z * seq string * seq vec)%type.
  Definition seqb_Z (a b : seq Z) : bool := (size a == size b) && all (fun xy => Z.eqb xy.1 xy.2) (zip a b).
  Definition seqb_s (a b : seq string) : bool := (size a == size b) && all (fun xy => String.eqb xy.1 xy.2) (zip a b).
  Definition new_trader (returns : frame) (Sigma_hats : seq (Z * 'M[R]_n)) (r_hats : option frame) (rhos : bool) : res trader :=
    if ~~ seqb_Z returns.1.1 (map fst Sigma_hats) then Raise AssertionError else
    let Sigmas := map snd Sigma_hats in
    let sigma_hats := [seq \col_i sqrt (S i i) | S : 'M[R]_n <- Sigmas] in
    if (if r_hats is Some f then ~~ (seqb_Z returns.1.1 f.1.1 && seqb_s returns.1.2 f.1.2) else false) then Raise AssertionError else
    if rhos then Raise AttributeError else
    if (size returns.1.1 == 0)%N then Raise ValueError else
    do Ls <- mapM get_L_inv Sigmas;
    Ok (mkTrader returns.1.1 returns.2 Sigmas (if r_hats is Some f then Some f.2 else None) sigma_hats Ls
          false None 1 false None None None None None None).
  Definition t_T (T : trader) : nat := size (t_times T).

  (** What a call leaves behind: the world, the trader, and how it ended. *)
  Definition outcome := (world * trader * option exn)%type.

  (** ** Trader.backtest (trading_model.py:246-572). *)
  Record bt_args := mkArgs {
    a_type : ptype; a_cons : nat (* which list object *); a_sigma_des : option R; a_adjust : R; a_limits : limits;
    a_speedup : bool; a_kappa : option R; a_rhos : option (seq (Z * vec))
  }.

  (** np.array of the solutions: all vectors, or all None; a mixture is a ValueError (inhomogeneous shape). *)
  Definition np_array {A} (l : seq (option A)) : res (seq (option A)) :=
    if all isSome l || all (fun o => ~~ isSome o) l then Ok l else Raise ValueError.

  (** w.value, prob.objective.value after prob.solve. *)
  Definition worker (solve : solver_t) (f : obj) (cons : seq con) (e : penv) (x : nat) : res (option (vec * R * R)) :=
    match prob_solve solve f cons e with
    | Solved v => Ok (Some (v x, f e v))
    | NotSolved => Ok None
    | Failed => Raise SolverError
    end.

  (** trading_model.py:147-163, get_vol_cont_w for a two-dimensional array ws, and one row of its result: the part
      sigma_des sqrt(adjust_factor) / sqrt(252) / obj is invested.  (A zero objective gives infinities: not modelled;
      a single row or objective would be broadcast: not modelled.) *)
  Definition vol_cont_row (sigma_des af : R) (d : vec * R) : vec * seq R :=
    let s := (sigma_des * sqrt af / sqrt 252)%re in
    let w_cash := (1 - s / d.2)%re in
    ((1 - w_cash)%re *: d.1, [:: w_cash]).
  Definition get_vol_cont_w (T : trader) (ws : seq vec) (obj : seq R) (sigma_des : R) : res (seq (vec * seq R)) :=
    if (size ws != size obj)%N then Raise (if (size ws == 1)%N || (size obj == 1)%N then Unmodelled else ValueError) else
    if has (fun o => o == 0) obj then Raise Unmodelled else
    Ok (map (vol_cont_row sigma_des (t_adjust T)) (zip ws obj)).

  (** trading_model.py:277-382: min_risk, vol_cont, robust_min_risk.  Names used: [x] for w, [x+1] for L_inv_param,
      [x+2] for sigma_hat_param.  The last argument of zip (line 377-382) is the single list
      [*L_inv_hats.values(), all_sigma_hat_param, all_sigma_hats]: zip stops after T entries, so every worker gets
      (prob, w, L_inv_param, L_inv) and sigma_hat_param keeps its first value.  kappa < 0: not convex, DCPError. *)
  Definition obj_min_risk (kappa : option R) (x : nat) : obj := fun e v =>
    (risk (p_mat e x.+1) (v x).1 +
     (if kappa is Some k then k * (dotp (p_vec e x.+2) (absv (v x).1) * dotp (p_vec e x.+2) (absv (v x).1)) else 0))%R.
  Definition bt_min_risk (solve : solver_t) (W : world) (T : trader) (a : bt_args) : outcome :=
    let robust := if a_type a is RobustMinRisk then true else false in
    if robust && ~~ isSome (a_kappa a) then (W, T, Some AssertionError) else
    let kappa := if robust then a_kappa a else None in
    let x := w_next W in
    let W := take_names W 3 in
    if a_speedup a && ~~ robust then (W, T, Some NameError) else
    let W := extend W (a_cons a) (c_budget false x :: limit_cons (a_limits a) x) in
    let cons := w_lists W (a_cons a) in
    match t_L_inv T, t_sigma_hats T with
    | L0 :: _, s0 :: _ =>
        let e := set_mat (w_env W) x.+1 L0 in
        let e := if robust then set_vec e x.+2 s0 else e in
        let W := with_env W e in
        if (if kappa is Some k then if Rlt_dec k 0 then true else false else false) then (W, T, Some DCPError) else
        match worker solve (obj_min_risk kappa x) cons e x with
        | Raise ex => (W, T, Some ex)
        | Ok _ =>
            if a_speedup a then (W, T, Some NameError) else
            match mapM (fun L => worker solve (obj_min_risk kappa x) cons (set_mat e x.+1 L) x) (t_L_inv T) with
            | Raise ex => (W, T, Some ex)
            | Ok sols =>
                match np_array sols with
                | Raise ex => (W, T, Some ex)
                | Ok sols =>
                    let T := set_obj (pmap (fun s : option (vec * R * R) => if s is Some s then Some s.2 else None) sols) T in
                    if a_type a is VolCont then
                      if a_sigma_des a is Some sd then
                        let T := set_diluted true T in
                        (* (T, 1) weights times (T, n, 1) solutions, then np.hstack of a three- and a two-dimensional array *)
                        (W, T, Some (if all isSome sols then ValueError else TypeError))
                      else (W, T, Some AssertionError)
                    else (W, set_ws [seq (if s is Some s then Some (s.1.1, [::]) else None) | s <- sols] T, None)
                end
            end
        end
    | _, _ => (W, T, Some IndexError)
    end.

  (** trading_model.py:384-459: mean_variance.  Names: [x] for w, [x+1] L_inv_param, [x+2] r_hat_param (its last entry, the
      return of cash, is 0), [x+3] rho_param (declared non-negative: assigning a negative entry is a ValueError). *)
  Definition c_risk (x : nat) (b : R) : con := fun e v => Rle (risk (p_mat e x.+1) (v x).1) b.
  Definition obj_mean_var (with_rho : bool) (x : nat) : obj := fun e v =>
    (- (dotp (p_vec e x.+2) (v x).1 - (if with_rho then dotp (p_vec e x.+3) (absv (v x).1) else 0)))%R.
  Definition nonneg (r : vec) : bool := [forall i, if Rle_dec 0 (r i 0) then true else false].
  Definition mv_worker (solve : solver_t) (cons : seq con) (e : penv) (x : nat) (with_rho : bool) (d : 'M[R]_n * (vec * vec))
    : res (option (vec * R * R)) :=
    if with_rho && ~~ nonneg d.2.2 then Raise ValueError else
    let e := set_vec (set_mat (if with_rho then set_vec e x.+3 d.2.2 else e) x.+1 d.1) x.+2 d.2.1 in
    worker solve (obj_mean_var with_rho x) cons e x.
  Definition bt_mean_variance (solve : solver_t) (W : world) (T : trader) (a : bt_args) (rhos : option (seq vec)) : outcome :=
    match t_rhats T, a_sigma_des a with
    | Some r_hats, Some sd =>
        let sd := (sd * a_adjust a)%re in
        let x := w_next W in
        let W := take_names W 4 in
        let W := extend W (a_cons a) (c_budget true x :: c_risk x (sd / sqrt 252)%re :: limit_cons (a_limits a) x) in
        let cons := w_lists W (a_cons a) in
        let with_rho := isSome rhos in
        let rho_rows := if rhos is Some r then r else [seq 0 | _ <- t_times T] in
        match t_L_inv T, r_hats, rho_rows with
        | L0 :: _, r0 :: _, q0 :: _ =>
            let e := set_vec (set_mat (w_env W) x.+1 L0) x.+2 r0 in
            if with_rho && ~~ nonneg q0 then (with_env W e, T, Some ValueError) else
            let e := if with_rho then set_vec e x.+3 q0 else e in
            let W := with_env W e in
            match mapM (mv_worker solve cons e x with_rho) (zip (t_L_inv T) (zip r_hats rho_rows)) with
            | Raise ex => (W, T, Some ex)
            | Ok sols =>
                match np_array sols with
                | Raise ex => (W, T, Some ex)
                | Ok sols =>
                    let T := set_obj (pmap (fun s : option (vec * R * R) => if s is Some s then Some (- s.2)%re else None) sols) T in
                    (W, set_ws [seq (if s is Some s then Some (s.1.1, [:: s.1.2]) else None) | s <- sols] T, None)
                end
            end
        | _, _, _ => (W, T, Some IndexError)
        end
    | _, _ => (W, T, Some AssertionError)
    end.

  (** trading_model.py:461-500: max_diverse.  Names: [x] for z, [x+1] L_inv_param, [x+2] sigma_param.  The local name cons
      is rebound: the argument is not touched.  w = z / sum(z). *)
  Definition c_nonneg (x : nat) : con := fun _ v => forall i, Rle 0 ((v x).1 i 0%R).
  Definition c_cap (x : nat) (M : R) : con := fun _ v => forall i, Rle ((v x).1 i 0%R) (M * (\sum_j (v x).1 j 0)%R).
  Definition c_unit (x : nat) : con := fun e v => dotp (p_vec e x.+2) (v x).1 = 1.
  Definition obj_risk (x : nat) : obj := fun e v => risk (p_mat e x.+1) (v x).1.
  Definition normalized (z : vec) : res (vec * seq R) :=
    let s := \sum_i z i 0 in if s != 0 then Ok (s^-1 *: z, [::]) else Raise Unmodelled.
  Definition bt_max_diverse (solve : solver_t) (W : world) (T : trader) (a : bt_args) : outcome :=
    let x := w_next W in
    let W := take_names W 3 in
    match upper_bound (a_limits a) with
    | None => (W, T, Some KeyError)
    | Some M =>
        let cons := [:: c_nonneg x; c_cap x M; c_unit x] in
        match t_L_inv T with
        | L0 :: _ =>
            let e := set_vec (set_mat (w_env W) x.+1 L0) x.+2 (const_mx 1) in
            let W := with_env W e in
            match worker solve (obj_risk x) cons e x with
            | Raise ex => (W, T, Some ex)
            | Ok _ =>
                match mapM (fun d => do s <- worker solve (obj_risk x) cons (set_vec (set_mat e x.+1 d.1) x.+2 d.2) x;
                                     if s is Some s then normalized s.1.1 else Raise TypeError)
                           (zip (t_L_inv T) (t_sigma_hats T)) with
                | Raise ex => (W, T, Some ex)
                | Ok ws => (W, set_ws (map Some ws) T, None)
                end
            end
        | _ => (W, T, Some IndexError)
        end
    end.

  (** trading_model.py:502-526: risk_parity.  log(geo_mean(w)) restricts the domain to positive w. *)
  Definition c_positive (x : nat) : con := fun _ v => forall i, Rlt 0 ((v x).1 i 0%R).
  Definition obj_parity (x : nat) : obj := fun e v =>
    (/ 2 * risk (p_mat e x.+1) (v x).1 - (\sum_i ln ((v x).1 i 0))%R / INR n)%re.
  Definition bt_risk_parity (solve : solver_t) (W : world) (T : trader) (a : bt_args) : outcome :=
    let x := w_next W in
    let W := take_names W 2 in
    let cons := [:: c_positive x] in
    match t_L_inv T with
    | L0 :: _ =>
        let e := set_mat (w_env W) x.+1 L0 in
        let W := with_env W e in
        match worker solve (obj_parity x) cons e x with
        | Raise ex => (W, T, Some ex)
        | Ok _ =>
            match mapM (fun L => do s <- worker solve (obj_parity x) cons (set_mat e x.+1 L) x;
                                 if s is Some s then normalized s.1.1 else Raise TypeError) (t_L_inv T) with
            | Raise ex => (W, T, Some ex)
            | Ok ws => (W, set_ws (map Some ws) T, None)
            end
        end
    | _ => (W, T, Some IndexError)
    end.

  (** trading_model.py:528-570: max_sharpe reads self.Lt_inv_hats, which no code sets. *)
  Definition bt_max_sharpe (W : world) (T : trader) (a : bt_args) : outcome :=
    if ~~ isSome (t_rhats T) then (W, T, Some AssertionError) else
    let W := take_names W 3 in
    if ~~ isSome (upper_bound (a_limits a)) then (W, T, Some KeyError) else (W, T, Some AttributeError).

  Definition backtest (solve : solver_t) (W : world) (T : trader) (a : bt_args) : outcome :=
    let T := set_call (a_type a) (a_adjust a) (a_speedup a) T in
    let rhos := match a_rhos a with
                | None => Ok None
                | Some d => do rows <- mapM (fun t => or_raise (dict_get Z.eqb d t) KeyError) (t_times T); Ok (Some rows)
                end in
    match rhos with
    | Raise ex => (W, T, Some ex)
    | Ok rhos =>
        match a_type a with
        | EqWeighted => (W, set_ws [seq Some (const_mx (/ INR n)%re, [::]) | _ <- t_times T] T, None)
        | MinRisk | VolCont | RobustMinRisk => bt_min_risk solve W T a
        | MeanVariance => bt_mean_variance solve W T a rhos
        | MaxDiverse => bt_max_diverse solve W T a
        | RiskParity => bt_risk_parity solve W T a
        | MaxSharpe => bt_max_sharpe W T a
        | OtherType => (W, T, Some UnboundLocalError)
        end
    end.

  (** ** trading_model.py:208-226, dilute_with_cash.  (A zero predicted risk gives infinite weights: not modelled.) *)
  Definition none_error : exn := if (n == 1)%N then TypeError else ValueError.
  Definition dilute_row (sigma_des : R) (S : 'M[R]_n) (w : wrow) : res (vec * seq R) :=
    match w with
    | None => Raise none_error
    | Some w =>
        let sigma_hat := sqrt (qf S w.1) in
        if Req_EM_T sigma_hat 0 then Raise Unmodelled else
        let theta := (sqrt (1 / 252) * (sigma_des / sigma_hat))%re in
        Ok (theta *: w.1, [seq theta * c | c <- w.2] ++ [:: (1 - theta)%re])
    end.
  Definition dilute_with_cash (T : trader) (sigma_des : R) : trader * option exn :=
    if t_diluted T then (T, None) else
    match t_ws T with
    | None => (T, Some AttributeError)
    | Some ws =>
        match mapM (fun d => dilute_row sigma_des d.1 d.2) (zip (t_Sigmas T) ws) with
        | Raise ex => (T, Some ex)
        | Ok ws => (set_ws_diluted ws T, None)
        end
    end.

  (** trading_model.py:574-599, get_total_returns: the loop over the days; [rf]: risk-free returns. *)
  Definition trades_cash (p : option ptype) : bool :=
    match p with Some VolCont | Some MeanVariance => true | _ => false end.
  Definition np_dot (w : wrow) (r : vec) (cash : seq R) : res R :=
    match w with
    | None => Raise (if (n + size cash == 1)%N then TypeError else ValueError)
    | Some w => if (size w.2 == size cash)%N then Ok (dotp w.1 r + \sum_(c <- zip w.2 cash) c.1 * c.2) else Raise ValueError
    end.
  Fixpoint returns_loop (T : trader) (t : nat) (rows : seq vec) (diluted : bool) (sigma_des : option R) (rf : option (seq R))
    : trader * (seq R * option exn) :=
    match rows with
    | [::] => (T, ([::], None))
    | r :: rows =>
        match t_ws T with
        | None => (T, ([::], Some AttributeError))
        | Some ws =>
            match (if diluted then
                     match (if t_diluted T then (T, None)
                            else if sigma_des is Some sd then dilute_with_cash T sd else (T, Some AssertionError)) with
                     | (T, Some ex) => (T, Raise ex)
                     | (T, None) =>
                         (T, match t_ws_diluted T with
                             | None => Raise AttributeError
                             | Some wd => or_raise (omap Some (List.nth_error wd t)) IndexError
                             end)
                     end
                   else (T, or_raise (List.nth_error ws t) IndexError)) with
            | (T, Raise ex) => (T, ([::], Some ex))
            | (T, Ok w) =>
                let cash := if trades_cash (t_type T) || diluted
                            then (match rf with
                                  | None => Ok [:: 0]
                                  | Some rf => do x <- or_raise (List.nth_error rf t) IndexError; Ok [:: x]
                                  end)
                            else Ok [::] in
                match (do cash <- cash; np_dot w r cash) with
                | Raise ex => (T, ([::], Some ex))
                | Ok x =>
                    let '(T, (xs, e)) := returns_loop T t.+1 rows diluted sigma_des rf in (T, (x :: xs, e))
                end
            end
        end
    end.
  Definition get_total_returns (T : trader) (diluted : bool) (sigma_des : option R) (rf : option (seq R)) : trader * option exn :=
    let '(T, (xs, e)) := returns_loop T 0 (t_returns T) diluted sigma_des rf in
    if e is Some ex then (T, Some ex) else (set_rets xs T, None).

  (** trading_model.py:601-609 and 236-244, get_portfolio_growth: V_t = V_(t-1) (1 + r_t / adjust_factor), V_(-1) = 1. *)
  Fixpoint growth (V af : R) (rets : seq R) : seq R :=
    match rets with [::] => [::] | r :: rets => let V := (V * (1 + r / af))%re in V :: growth V af rets end.
  Definition get_portfolio_growth (T : trader) : trader * option exn :=
    if t_rets T is Some r then (set_Vs (growth 1 (t_adjust T) r) T, None) else (T, Some AttributeError).

  (** trading_model.py:611-623, compute_max_drawdown.  (A zero peak gives NaN or infinity: not modelled.) *)
  Fixpoint drawdown_loop (max_dd peak : R) (Vs : seq R) : res R :=
    match Vs with
    | [::] => Ok max_dd
    | V :: Vs =>
        let peak := if Rlt_dec peak V then V else peak in
        if Req_EM_T peak 0 then Raise Unmodelled else
        let dd := ((peak - V) / peak)%re in
        drawdown_loop (if Rlt_dec max_dd dd then dd else max_dd) peak Vs
    end.
  Definition compute_max_drawdown (T : trader) : res R :=
    match t_Vs T with
    | None => Raise AttributeError
    | Some [::] => Raise IndexError
    | Some ((V0 :: _) as Vs) => drawdown_loop 0 V0 Vs
    end.

  (** trading_model.py:228-234. (Constant returns give infinities: not modelled.) *)
  Definition get_risk_adj_returns (T : trader) (sigma_des : R) : trader * option exn :=
    match t_rets T with
    | None => (T, Some AttributeError)
    | Some r => if Req_EM_T (rstd r) 0 then (T, Some Unmodelled)
                else (set_rets_adj [seq (sigma_des / (sqrt 252 * rstd r))%re * x | x <- r] T, None)
    end.

  (** trading_model.py:625-655, get_metrics.  m_sharpe = None: NaN or infinite.  (One risk-free rate or one
      return would be broadcast: not modelled.) *)
  Record metrics := mkMetrics { m_mean : R; m_risk : R; m_sharpe : option R; m_drawdown : R }.
  Definition get_metrics (T : trader) (diluted : bool) (sigma_des : option R) (rf : option (seq R)) (excess : bool)
    : trader * res metrics :=
    match get_total_returns T diluted sigma_des rf with
    | (T, Some ex) => (T, Raise ex)
    | (T, None) =>
        match get_portfolio_growth T with
        | (T, Some ex) => (T, Raise ex)
        | (T, None) =>
            let rets := if t_rets T is Some r then r else [::] in
            let af := t_adjust T in
            let adj := [seq (x / af)%re | x <- rets] in
            (T, do ms <- (if excess then
                            match rf with
                            | None => Raise AssertionError
                            | Some rf => if (size rf == size rets)%N
                                         then Ok (rmean [seq (x.1 - x.2)%re | x <- zip adj rf] * 252, rstd rets * sqrt 252)%re
                                         else Raise (if (size rf == 1)%N || (size rets == 1)%N then Unmodelled else ValueError)
                            end
                          else Ok (rmean adj * 252, rstd adj * sqrt 252)%re);
                do dd <- compute_max_drawdown T;
                Ok (mkMetrics ms.1 ms.2 (if Req_EM_T ms.2 0 then None else Some (ms.1 / ms.2)%re) dd))
        end
    end.
End Trader.
