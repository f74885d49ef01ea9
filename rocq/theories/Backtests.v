(** * Model of experiments/utils/portfolio_backtests.py in exact arithmetic, on top of Trader.v.

    Not modelled: number formatting of the printed table (a line holds the numbers printed), progress bars, dates that
    Python takes for false (Timestamps never are). *)
From Coq Require Import Reals ZArith String List.
Set Warnings "-notation-overridden,-ambiguous-paths".
From mathcomp Require Import all_ssreflect all_algebra.
From Verif Require Import RStruct MatR Num Py Combination Trader.
Set Implicit Arguments.
Unset Strict Implicit.
Unset Printing Implicit Defensive.
Import GRing.Theory.
Local Open Scope ring_scope.
Delimit Scope R_scope with re.

Section Backtests.
  Context (n : nat).
  Notation vec := 'cV[R]_n.
  Notation dict := (seq (Z * 'M[R]_n)).

  (** A frame of returns: index, columns, rows; an entry None is NaN. *)
  Definition row := 'cV[option R]_n.
  Definition rframe := (seq Z * seq string * seq row)%type.
  Definition items (f : rframe) : seq (Z * row) := zip f.1.1 f.2.

  (** returns.loc[start:end] for a sorted index (any other order: not modelled). *)
  Definition loc_slice (rows : seq (Z * row)) (a b : Z) : res (seq (Z * row)) :=
    if sorted Z.leb (map fst rows) then Ok [seq r <- rows | Z.leb a r.1 && Z.leb r.1 b] else Raise Unmodelled.
  (** .shift(-1) and .dropna() *)
  Definition shift_up (rows : seq (Z * row)) : seq (Z * row) :=
    zip (map fst rows) (rcons (behead (map snd rows)) (const_mx None)).
  Definition complete (r : row) : bool := [forall i, isSome (r i 0)].
  Definition dropna (rows : seq (Z * row)) : seq (Z * row) := [seq r <- rows | complete r.2].
  Definition values (r : row) : vec := \col_i odflt 0 (r i 0).

  (** {time: d[time] for time in index} *)
  Definition dict_at V (d : seq (Z * V)) (ts : seq Z) : res (seq (Z * V)) :=
    do l <- mapM (fun t => do v <- or_raise (dict_get Z.eqb d t) KeyError; Ok (t, v)) ts; Ok (dict_of Z.eqb l).

  (** portfolio_backtests.py:15-26, _get_causal.  Mean predictors: one row per date, no NaN. *)
  Definition get_causal (returns : rframe) (Sigmas : dict) (start_date end_date : Z) (mus : option (frame n))
    : res (frame n * dict * option (frame n)) :=
    do w <- loc_slice (items returns) start_date end_date;
    let returns_temp := dropna (shift_up w) in
    let idx := map fst returns_temp in
    do Sigmas_temp <- dict_at Sigmas idx;
    do mus_temp <- match mus with
                   | None => Ok None
                   | Some m => do l <- dict_at (zip m.1.1 m.2) idx;
                               Ok (Some (map fst l, (if l is [::] then [::] else m.1.2), map snd l))
                   end;
    Ok ((idx, returns.1.2, map (fun r => values r.2) returns_temp), Sigmas_temp, mus_temp).

  (** portfolio_backtests.py:82-118, PortfolioBacktest.__init__. *)
  Record pbt := mkPbt { b_returns : rframe; b_covs : seq dict; b_means : option (seq (frame n)); b_names : seq string;
                        b_start : Z; b_end : Z }.
  Definition mem_Z (t : Z) (l : seq Z) : bool := has (Z.eqb t) l.
  Definition keys_in (d : dict) (l : seq Z) : bool := all (fun kv => mem_Z kv.1 l) d.
  Definition date_in (o : option Z) (d : dict) : bool := if o is Some t then mem_Z t (map fst d) else true.
  Definition new_backtest (returns : rframe) (covs : seq dict) (names : seq string) (means : option (seq (frame n)))
    (start_date end_date : option Z) : res pbt :=
    if ~~ all (fun d => keys_in d returns.1.1) covs then Raise AssertionError else
    match covs with
    | [::] => Raise UnboundLocalError
    | c0 :: cs =>
        let c := last c0 cs in
        if ~~ (if means is Some ms then all (fun m : frame n => keys_in c m.1.1) ms else true) then Raise AssertionError else
        if ~~ date_in start_date c then Raise AssertionError else
        if ~~ date_in end_date c then Raise AssertionError else
        do s <- (if start_date is Some t then Ok t else if c is (t, _) :: _ then Ok t else Raise IndexError);
        do e <- (if end_date is Some t then Ok t else if c is kv :: d then Ok (last kv d).1 else Raise IndexError);
        Ok (mkPbt returns covs means names s e)
    end.

  (** The subclasses and the arguments of their backtest methods; what they pass to Trader.backtest (the constraint list
      is the shared default, number 0). *)
  Inductive kind := KEqWeighted | KMinRisk (l : limits) | KMaxDiverse (l : limits) | KRiskParity
    | KMeanVariance (l : limits) (sigma_tar : option R) (rhos : option (seq (Z * vec))).
  Definition py_default : limits := mkLimits (Some (16 / 10)%re) (Some (15 / 100)%re) (Some (- (1 / 10))%re).
  Definition args_of (k : kind) : bt_args n :=
    match k with
    | KEqWeighted => mkArgs EqWeighted 0 None 1 py_default false None None
    | KMinRisk l => mkArgs MinRisk 0 None 1 l false None None
    | KMaxDiverse l => mkArgs MaxDiverse 0 None 1 l false None None
    | KRiskParity => mkArgs RiskParity 0 None 1 py_default false None None
    | KMeanVariance l sd rhos => mkArgs MeanVariance 0 sd 1 l false None rhos
    end.
  Definition mus_of (B : pbt) (k : kind) (i : nat) : res (option (frame n)) :=
    match k with
    | KMeanVariance _ _ _ =>
        match b_means B with
        | None => Raise TypeError
        | Some ms => do m <- or_raise (List.nth_error ms i) IndexError; Ok (Some m)
        end
    | _ => Ok None
    end.
  (** portfolio_backtests.py:131-145, 154-170, 179-195, 204-216, 238-257: the loop over the predictors. *)
  Fixpoint bt_loop (solve : solver_t n) (W : world n) (B : pbt) (k : kind) (i : nat) (covs : seq dict)
    (acc : seq (string * trader n)) : world n * res (seq (string * trader n)) :=
    match covs with
    | [::] => (W, Ok acc)
    | Sigma_hats :: covs =>
        match (do mus <- mus_of B k i;
               do ' (rt, St, mt) <- get_causal (b_returns B) Sigma_hats (b_start B) (b_end B) mus;
               new_trader rt St mt false) with
        | Raise ex => (W, Raise ex)
        | Ok T =>
            match backtest solve W T (args_of k) with
            | (W, T, Some ex) => (W, Raise ex)
            | (W, T, None) =>
                match List.nth_error (b_names B) i with
                | None => (W, Raise IndexError)
                | Some name => bt_loop solve W B k i.+1 covs (dict_set String.eqb acc name T)
                end
            end
        end
    end.
  Definition run_backtest (solve : solver_t n) (W : world n) (B : pbt) (k : kind) : world n * res (seq (string * trader n)) :=
    bt_loop solve W B k 0 (b_covs B) [::].

  (** portfolio_backtests.py:29-59, _create_table_helper: the lines printed, and how it ended. *)
  Inductive line := LBegin | LRow (name : string) (ret risk : R) (sharpe : option R) (drawdown : R) | LHline | LEnd.
  Definition table_row (name : string) (m : metrics) : line :=
    LRow name (m_mean m * 100)%re (m_risk m * 100)%re (m_sharpe m) (m_drawdown m * 100)%re.
  Definition table_helper (ms : seq (string * metrics)) (prescient : bool) : seq line * option exn :=
    let head := LBegin :: [seq table_row kv.1 kv.2 | kv <- ms & ~~ String.eqb kv.1 "PRESCIENT"] ++ [:: LHline] in
    if prescient then
      match dict_get String.eqb ms "PRESCIENT"%string with
      | None => (head, Some KeyError)
      | Some m => match ms with
                  | [::] => (head, Some UnboundLocalError)
                  | kv :: ms => (head ++ [:: table_row (last kv ms).1 m; LEnd], None)
                  end
      end
    else (head ++ [:: LEnd], None).

  (** portfolio_backtests.py:62-79, create_table: the traders afterwards, the lines printed and how it ended.
      [if sigma_tar]: None and zero are false. *)
  Definition target (sigma_tar : option R) : option R := if sigma_tar is Some s then if Req_EM_T s 0 then None else Some s else None.
  Fixpoint table_metrics (traders : seq (string * trader n)) (sigma_tar : option R) (rf : option (seq R)) (excess : bool)
    : seq (string * trader n) * res (seq (string * metrics)) :=
    match traders with
    | [::] => ([::], Ok [::])
    | (name, T) :: rest =>
        match get_metrics T (isSome (target sigma_tar)) (target sigma_tar) rf excess with
        | (T, Raise ex) => ((name, T) :: rest, Raise ex)
        | (T, Ok m) => let '(rest, r) := table_metrics rest sigma_tar rf excess in ((name, T) :: rest, do ms <- r; Ok ((name, m) :: ms))
        end
    end.
  Definition create_table (traders : seq (string * trader n)) (sigma_tar : option R) (rf : option (seq R)) (excess prescient : bool)
    : seq (string * trader n) * (seq line * option exn) :=
    match table_metrics traders sigma_tar rf excess with
    | (traders, Raise ex) => (traders, ([::], Some ex))
    | (traders, Ok ms) => (traders, table_helper ms prescient)
    end.
End Backtests.
