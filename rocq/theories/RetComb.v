(** * Model of experiments/utils/return_combination.py in exact arithmetic, function by function.

    Returns and predictions handed to the combinators have no NaN (elsewhere None is NaN).  All predictors have the same
    number K of columns; column names are distinct. *)
From Coq Require Import Reals ZArith String List.
Set Warnings "-notation-overridden,-ambiguous-paths".
From mathcomp Require Import all_ssreflect all_algebra.
From Verif Require Import RStruct MatR Num Py Combination Trader.
Set Implicit Arguments.
Unset Strict Implicit.
Unset Printing Implicit Defensive.
Import GRing.Theory.
Local Open Scope ring_scope.
Delimit Scope R_scope with re.

(** ** pandas *)

(** Series.ewm(...).mean() with adjust=True, ignore_na=False and min_periods 0 or 1 (pandas/_libs/window/aggregations.pyx, ewm): the
    state is (weighted mean, old weight); [a] is the factor by which old weights shrink at every position. *)
Definition ewm_step (a : R) (st : option R * R) (x : option R) : option R * R :=
  match st.1, x with
  | Some m, Some v => let o := a * st.2 in (Some ((o * m + v) / (o + 1))%re, o + 1)
  | Some m, None => (Some m, a * st.2)
  | None, Some v => (Some v, st.2)
  | None, None => st
  end.
Fixpoint ewm_loop (a : R) (st : option R * R) (xs : seq (option R)) : seq (option R) :=
  match xs with [::] => [::] | x :: xs => let st := ewm_step a st x in st.1 :: ewm_loop a st xs end.
Definition ewm_mean (a : R) (xs : seq (option R)) : seq (option R) := ewm_loop a (None, 1) xs.
(** ewm(c) = ewm(com=c): alpha = 1 / (1 + c); ewm(halflife=h): alpha = 1 - exp(log(0.5) / h). *)
Definition com_factor (c : R) : R := (1 - 1 / (1 + c))%re.
Definition halflife_factor (h : R) : R := exp (ln (/ 2) / h)%re.
(** Series.shift(lag) *)
Definition shift_series (lag : Z) (xs : seq (option R)) : seq (option R) :=
  match lag with
  | Zneg p => drop (Pos.to_nat p) xs ++ nseq (minn (Pos.to_nat p) (size xs)) None
  | _ => nseq (minn (Z.to_nat lag) (size xs)) None ++ take (size xs - Z.to_nat lag) xs
  end.
(** Series.dropna(), then a column of pd.DataFrame(..., index=idx): values found by label, NaN where there is none. *)
Definition dropna_series (s : seq (Z * option R)) : seq (Z * option R) := [seq p <- s | isSome p.2].
Definition reindex (s : seq (Z * option R)) (idx : seq Z) : seq (option R) :=
  [seq (if dict_get Z.eqb s t is Some v then v else None) | t <- idx].
(** .loc[a:b] on a sorted index without duplicates *)
Definition label_slice A (idx : seq Z) (l : seq A) (a b : Z) : seq A :=
  [seq p.2 | p <- zip idx l & Z.leb a p.1 && Z.leb p.1 b].
Definition mem_Z (t : Z) (l : seq Z) : bool := has (Z.eqb t) l.

(** ** return_combination.py:7-17, feature_engineer: two changed copies side by side (comparisons with NaN are False). *)
Definition set_where (p : R -> bool) (x : option R) : option R := if x is Some v then (if p v then Some 0 else x) else None.
Definition Rltb (x y : R) : bool := if Rlt_dec x y then true else false.
Definition feature_engineer (rows : seq (seq (option R))) : seq (seq (option R)) :=
  [seq [seq set_where (fun v => Rltb v 0) x | x <- row] ++ [seq set_where (fun v => Rltb 0 v) x | x <- row] | row <- rows].

(** return_combination.py:374-386, daily_predictors; the dictionary has one entry per different lag.  (Duplicate labels:
    not modelled.) *)
Definition daily_predictors (idx : seq Z) (xs : seq (option R)) (lags : seq Z) : res (seq Z * seq (Z * seq (option R))) :=
  if all (fun i => ~~ mem_Z (nth Z0 idx i) (drop i.+1 idx)) (iota 0 (size idx)) then
    Ok (idx, dict_of Z.eqb [seq (lag, reindex (dropna_series (zip idx (shift_series lag xs))) idx) | lag <- lags])
  else Raise Unmodelled.

(** return_combination.py:389-403, ewma_predictors; a half-life that is not positive is a ValueError. *)
Definition Reqb (x y : R) : bool := if Req_EM_T x y then true else false.
Definition ewma_predictors (idx : seq Z) (xs : seq (option R)) (halflives : seq R) : res (seq Z * seq (R * seq (option R))) :=
  if all (fun i => ~~ mem_Z (nth Z0 idx i) (drop i.+1 idx)) (iota 0 (size idx)) then
    do cols <- mapM (fun h => if Rltb 0 h
                              then Ok (h, reindex (dropna_series (zip idx (shift_series 1 (ewm_mean (halflife_factor h) xs)))) (behead idx))
                              else Raise ValueError) halflives;
    Ok (behead idx, dict_of Reqb cols)
  else Raise Unmodelled.

Section Combinator.
  Context (K : nat).
  Notation vec := 'cV[R]_K.

  (** ** ReturnCombinator *)

  (** return_combination.py:143-147: beta^i for i = 0 .. m-1, divided by the sum, times m, reversed. *)
  Definition decay_weights (m : nat) : seq R :=
    let beta := exp (ln (5 / 10) / 500)%re in
    let w := [seq beta ^+ i | i <- iota 0 m] in
    rev [seq (x / (\sum_(y <- w) y)%R * INR m)%re | x <- w].

  (** return_combination.py:132-158, _get_weights.  A different number of returns and predictions: ValueError (matmul); a
      singular matrix: LinAlgError. *)
  Definition get_weights (returns : seq R) (preds : seq vec) (scale : vec) (alpha : R) : res vec :=
    if size returns != size preds then Raise ValueError else
    let b := decay_weights (size preds) in
    let A := \sum_(p <- zip b preds) p.1 *: (p.2 *m p.2^T) + alpha *: diag_mx scale^T in
    let r := \sum_(p <- zip (zip b preds) returns) (p.1.1 * p.2) *: p.1.2 in
    if A \in unitmx then Ok (invmx A *m r) else Raise LinAlgError.

  (** return_combination.py:162-180, _get_scales: ewm(250).mean().shift(1) of the squared predictions, column by column. *)
  Definition get_scales (preds : seq vec) (k : 'I_K) : seq (option R) :=
    shift_series 1 (ewm_mean (com_factor 250) [seq Some (x k 0 * x k 0) | x : vec <- preds]).
  (** scales[i].loc[t_next] for the position t of t_next; NaN at t = 0 (np.linalg.solve with NaN: not modelled). *)
  Definition scale_at (preds : seq vec) (t : nat) : res vec :=
    if [forall k, isSome (nth None (get_scales preds k) t)]
    then Ok (\col_k odflt 0 (nth None (get_scales preds k) t)) else Raise Unmodelled.

  (** return_combination.py:182-231, fit.  Returns: index and columns (name, values); predictors: (index, rows).  memory is a
      natural number (times[t - 1] is the last time for t = 0).  Result: index, forecasts per column, weights per predictor.
      (An index that is not increasing: not modelled.) *)
  Definition increasing_b (l : seq Z) : bool := sorted Z.ltb l.
  Definition fit (idx : seq Z) (cols : seq (string * seq R)) (preds : seq (seq Z * seq vec)) (memory : nat) (alpha : R)
    : res (seq Z * seq (string * seq R) * seq (seq vec)) :=
    match preds with
    | [::] => Raise IndexError
    | p0 :: _ =>
        let times := p0.1 in
        let n := size preds in
        do _ <- mapM (fun p : seq Z * seq vec =>
                        if size times != size p.1 then Raise ValueError
                        else if seqb_Z times p.1 then Ok tt else Raise AssertionError) preds;
        if ~~ all (fun t => mem_Z t idx) times then Raise AssertionError else
        if ~~ (increasing_b times && increasing_b idx) then Raise Unmodelled else
        do W <- mapM (fun t =>
                  let t_start := nth Z0 times (t - memory) in
                  let t_end := if t is t'.+1 then nth Z0 times t' else last Z0 times in
                  mapM (fun ic : nat * (string * seq R) =>
                          do p <- or_raise (List.nth_error preds ic.1) IndexError;
                          do scale <- scale_at p.2 t;
                          get_weights (label_slice idx ic.2.2 t_start t_end) (label_slice p.1 p.2 t_start t_end) scale alpha)
                       (zip (iota 0 (size cols)) cols))
                (iota memory (size times - memory));
        if n != size cols then Raise ValueError else
        let hats := [seq (ic.2.1, [seq dotp (nth 0 (nth p0 preds ic.1).2 (memory + j)) (nth 0 (nth [::] W j) ic.1) | j <- iota 0 (size W)])
                    | ic <- zip (iota 0 n) cols] in
        let weights := [seq [seq nth 0 Wj i | Wj <- W] | i <- iota 0 n] in
        Ok (drop memory times, hats, weights)
    end.

  (** return_combination.py:20-52, tune_alpha: for every alpha the correlation (None: NaN, a constant series) and the root mean
      square error of the forecasts against the returns of their dates; [returns] a frame, both flattened row by row. *)
  Definition rmse (xs ys : seq R) : R := sqrt (rmean [seq ((p.1 - p.2) * (p.1 - p.2))%re | p <- zip xs ys]).
  Definition corrcoef (xs ys : seq R) : option R :=
    let dx := [seq x - rmean xs | x <- xs] in let dy := [seq y - rmean ys | y <- ys] in
    let sxx := \sum_(x <- dx) x * x in let syy := \sum_(y <- dy) y * y in
    if (sxx == 0) || (syy == 0) then None else Some ((\sum_(p <- zip dx dy) p.1 * p.2)%R / (sqrt sxx * sqrt syy))%re.
  Definition flatten_cols (cols : seq (seq R)) (rows : nat) : seq R :=
    flatten [seq [seq nth 0 c j | c <- cols] | j <- iota 0 rows].
  Definition tune_alpha (idx : seq Z) (cols : seq (string * seq R)) (preds : seq (seq Z * seq vec)) (alphas : seq R) (memory : nat)
    : res (seq R * seq (option R) * seq R * seq (seq (seq vec))) :=
    do l <- mapM (fun alpha =>
              do out <- fit idx cols preds memory alpha;
              let ts := out.1.1 in
              let hats := flatten_cols (map snd out.1.2) (size ts) in
              do rows <- mapM (fun c : string * seq R => mapM (fun t => or_raise (dict_get Z.eqb (zip idx c.2) t) KeyError) ts) cols;
              let real := flatten_cols rows (size ts) in
              (* no forecast at all: np.mean and np.corrcoef of empty arrays, NaN *)
              if size hats == 0%N then Raise Unmodelled else
              Ok ((corrcoef hats real, rmse hats real), out.2)) alphas;
    Ok (alphas, map (fun x => x.1.1) l, map (fun x => x.1.2) l, map snd l).

  (** ** The combinators based on the lasso problem. *)

  (** return_combination.py:66-95, _combinator_problem: the objective, for the values of the parameters. *)
  Definition lasso (alpha : R) (ys : seq R) (xs : seq vec) (w : vec) : R :=
    \sum_(p <- zip ys xs) (p.1 - dotp p.2 w) * (p.1 - dotp p.2 w) + alpha * \sum_k Rabs (w k 0).
  (** problem.solve: a minimiser, no solution (weights.value is None), or cp.SolverError. *)
  Inductive lsol := LSolved (w : vec) | LNone | LFailed.
  Definition lsolver := (vec -> R) -> lsol.
  (** Setting the parameters (a wrong shape is a ValueError) and solving; a negative alpha is a DCPError. *)
  Definition lasso_at (solve : lsolver) (memory : nat) (alpha : R) (ys : seq R) (xs : seq vec) : res (option vec) :=
    if (size ys != memory) || (size xs != memory) then Raise ValueError else
    if Rltb alpha 0 then Raise DCPError else
    match solve (lasso alpha ys xs) with LSolved w => Ok (Some w) | LNone => Ok None | LFailed => Raise SolverError end.

  (** ReturnCombinatorOld: the attributes that build sets (K, memory, alpha). *)
  Record old_combinator := mkOld { o_K : nat; o_memory : nat; o_alpha : R }.
  (** return_combination.py:262-298, fit, for memory >= 1 (memory 0 makes empty parameters: not modelled).  Not built: reading
      self.K is an AttributeError.  A missing solution gives a row of NaN, whose products are left out of the sum. *)
  Definition old_fit (solve : lsolver) (self : option old_combinator) (idx : seq Z) (returns : seq R) (times : seq Z) (preds : seq vec)
    : res (seq Z * seq R * seq (option vec)) :=
    match self with
    | None => Raise AttributeError
    | Some c =>
        if K != o_K c then Raise AssertionError else
        if ~~ all (fun t => mem_Z t idx) times then Raise AssertionError else
        if ~~ (increasing_b times && increasing_b idx && (0 < o_memory c)%N) then Raise Unmodelled else
        let m := o_memory c in
        do W <- mapM (fun t => let a := nth Z0 times (t - m) in let b := nth Z0 times t.-1 in
                               lasso_at solve m (o_alpha c) (label_slice idx returns a b) (label_slice times preds a b))
                     (iota m (size times - m));
        Ok (drop m times, [seq (if nth None W j is Some w then dotp (nth 0 preds (m + j)) w else 0) | j <- iota 0 (size W)], W)
    end.
  (** return_combination.py:343-371, ewma_return_combination, for memory >= 1 and predictions with the index of the returns
      (otherwise rows are added to the weights: not modelled).  weights.value.T of None: AttributeError. *)
  Definition ewma_return_combination (solve : lsolver) (idx : seq Z) (returns : seq R) (times : seq Z) (preds : seq vec) (alpha : R) (m : nat)
    : res (seq Z * seq R * seq vec) :=
    if ~~ (seqb_Z idx times && increasing_b times && (0 < m)%N) then Raise Unmodelled else
    do W <- mapM (fun t => let a := nth Z0 times (t - m) in let b := nth Z0 times t.-1 in
                           do w <- lasso_at solve m alpha (label_slice idx returns a b) (label_slice times preds a b);
                           or_raise w AttributeError)
                 (iota m (size idx - m));
    Ok (drop m times, [seq dotp (nth 0 preds (m + j)) (nth 0 W j) | j <- iota 0 (size W)], W).
End Combinator.
