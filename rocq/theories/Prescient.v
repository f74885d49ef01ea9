(** * Model of the evaluation cells of the notebooks: the PRESCIENT benchmark, the log-likelihoods and the regrets.

    experiments/industry_portfolios.ipynb:183-190, 369-380; the same cells are in stock_portfolios.ipynb:175-182, 380-391,
    factor_portfolios.ipynb:177-184, 444-455 and extensions/realized_covariance.ipynb:144-151, 270-281.
    Returns and predictions are finite; the columns agree. *)
From Coq Require Import Reals List.
Set Warnings "-notation-overridden,-ambiguous-paths".
From mathcomp Require Import all_ssreflect all_algebra.
From Verif Require Import RStruct MatR Num Py Combination ExpUtils.
Set Implicit Arguments.
Unset Strict Implicit.
Unset Printing Implicit Defensive.
Import GRing.Theory.
Local Open Scope ring_scope.
Delimit Scope R_scope with re.

(** A time stamp: year, month (1 to 12), moment within the month. *)
Definition date : Type := (nat * nat * nat)%type.
Definition d_year (t : date) : nat := t.1.1.
Definition d_month (t : date) : nat := t.1.2.
(** `(t.month-1)//3 + 1`, and DatetimeIndex.quarter.  industry_portfolios.ipynb:187-188 *)
Definition d_quarter (t : date) : nat := ((d_month t - 1) %/ 3 + 1)%N.

Section Prescient.
  Context (n : nat).
  Notation vec := 'cV[R]_n.
  Notation mat := 'M[R]_n.

  (** `returns.loc[(returns.index.year == t.year) & (returns.index.quarter == quarter)].values`.  industry_portfolios.ipynb:188-189 *)
  Definition quarter_rows (returns : seq (date * vec)) (t : date) : seq vec :=
    [seq r.2 | r <- returns & (d_year r.1 == d_year t) && (d_quarter r.1 == d_quarter t)].
  (** np.mean(., axis=0) *)
  Definition col_mean (rows : seq vec) : vec := (/ INR (size rows))%re *: \sum_(r <- rows) r.
  (** np.cov(., rowvar=False): divided by N - 1. *)
  Definition np_cov (rows : seq vec) : mat :=
    (/ (INR (size rows) - 1))%re *: \sum_(r <- rows) (r - col_mean rows) *m (r - col_mean rows)^T.
  (** The loop over the dates.  One day in the quarter: np.cov divides 0 by 0 and the matrix is NaN ([None]).
      industry_portfolios.ipynb:183-190 *)
  Definition prescient (returns : seq (date * vec)) : seq (date * option mat) :=
    [seq (p.1, let rows := quarter_rows returns p.1 in
               if (size rows <= 1)%N then None else Some (np_cov rows + col_mean rows *m (col_mean rows)^T)) | p <- returns].

  (** returns.loc[t] for distinct labels. *)
  Fixpoint lookup (A : Type) (d : seq (date * A)) (t : date) : option A :=
    match d with [::] => None | (u, a) :: d => if u == t then Some a else lookup d t end.

  (** One turn of the loop over the predictors: the prediction of a date is scored on the next date of the predictor.
      np.stack of an empty list: ValueError.  industry_portfolios.ipynb:373-376 *)
  Definition scores (returns : seq (date * vec)) (predictor : seq (date * mat)) : res (seq (date * option R)) :=
    let keys := [seq p.1 | p <- predictor] in
    do rows <- mapM (fun t => or_raise (lookup returns t) KeyError) keys;
    let returns_temp := behead rows in
    let times := behead keys in
    if predictor is [::] then Raise ValueError else
    let Sigmas_temp := take (size predictor).-1 [seq p.2 | p <- predictor] in
    do ll <- log_likelihood returns_temp Sigmas_temp None 1;
    if size ll == size times then Ok (zip times ll) else Raise ValueError.

  (** The difference of two series over the same index; another index is left out.  industry_portfolios.ipynb:378-380 *)
  Definition regret (prescient_ll other_ll : seq (date * option R)) : res (seq (date * option R)) :=
    if [seq p.1 | p <- prescient_ll] == [seq p.1 | p <- other_ll] then
      Ok [seq (p.1.1, if p.1.2 is Some a then (if p.2.2 is Some b then Some (a - b)%re else None) else None) | p <- zip prescient_ll other_ll]
    else Raise Unmodelled.
End Prescient.
