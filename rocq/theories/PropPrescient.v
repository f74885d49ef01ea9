(** * Properties C114-C116: the evaluation cells of the notebooks. *)
From Coq Require Import Reals List.
Set Warnings "-notation-overridden,-ambiguous-paths".
From mathcomp Require Import all_ssreflect all_algebra.
From Verif Require Import RStruct MatR Num Py ExpUtils SpecExp Prescient SpecPrescient PrescientProps PrescientEx.
Set Implicit Arguments.
Unset Strict Implicit.
Unset Printing Implicit Defensive.
Import GRing.Theory.
Local Open Scope ring_scope.
Delimit Scope R_scope with re.

(** C114.  The PRESCIENT matrix of a date is the second moment of the returns of its quarter plus their centred second moment divided by N - 1; NaN exactly if
    the quarter has a single day. *)
Theorem C114_value n (returns : seq (date * 'cV[R]_n)) : all (fun p => calendar p.1) returns ->
  prescient returns = [seq (p.1, let rows := rows_where (same_quarter p.1) returns in if size rows == 1%N then None else Some (inflated_moment rows)) | p <- returns].
Proof. exact: prescient_value. Qed.
Example C114_value_ex : all (fun p => calendar p.1) ex_returns /\
  prescient ex_returns = [:: ((2024, 1, 2), Some (const_mx (28 / 9)%re)); ((2024, 2, 1), Some (const_mx (28 / 9)%re)); ((2024, 3, 1), Some (const_mx (28 / 9)%re));
    ((2024, 4, 1), Some (const_mx 6%re)); ((2024, 5, 2), Some (const_mx 6%re))]%N.
Proof. exact: ex_value. Qed.
Print Assumptions C114_value.

(** The same matrix on all the days of a quarter. *)
Theorem C114_constant n (returns : seq (date * 'cV[R]_n)) k l (x0 : date * 'cV[R]_n) : all (fun p => calendar p.1) returns -> (k < size returns)%N -> (l < size returns)%N ->
  same_quarter (nth x0 returns k).1 (nth x0 returns l).1 -> (nth (x0.1, None) (prescient returns) k).2 = (nth (x0.1, None) (prescient returns) l).2.
Proof. exact: prescient_constant. Qed.
Print Assumptions C114_constant.

(** It is positive semidefinite, and positive definite exactly if no portfolio earns nothing on every day of the quarter: never with fewer days than assets. *)
Theorem C114_definite n (rows : seq 'cV[R]_n) : (1 < size rows)%N ->
  [/\ psd (inflated_moment rows), spd (inflated_moment rows) <-> spanning rows & (size rows < n)%N -> ~ spd (inflated_moment rows)].
Proof. exact: definite. Qed.
Example C114_definite_ex : (1 < size ex_rows)%N /\ spanning ex_rows.
Proof. exact: ex_spanning. Qed.
Print Assumptions C114_definite.

(** Each prediction is scored with the Gaussian log-density of the return of the next date of the predictor; the first date gets no score and the last
    prediction is not looked at. *)
Theorem C114_scores n (returns : seq (date * 'cV[R]_n)) (predictor : seq (date * 'M[R]_n)) (row : nat -> 'cV[R]_n) (x0 := ((0, 0, 0)%N, 0)) : (0 < size predictor)%N ->
  (forall k, (k < size predictor)%N -> lookup returns (nth x0 predictor k).1 = Some (row k)) ->
  (forall k, (k.+1 < size predictor)%N -> spd (nth x0 predictor k).2) ->
  scores returns predictor = Ok [seq ((nth x0 predictor k.+1).1, Some (ln (normal_density 0 (nth x0 predictor k).2 (row k.+1)))) | k <- iota 0 (size predictor).-1].
Proof. exact: scoresE. Qed.
Print Assumptions C114_scores.

(** PRESCIENT is scored on a day with the matrix of the quarter of the day before. *)
Theorem C114_scored n (returns : seq (date * 'cV[R]_n)) (preds : seq (date * 'M[R]_n)) (x0 : date * 'cV[R]_n) :
  seq.uniq [seq r.1 | r <- returns] -> all (fun p => calendar p.1) returns -> (0 < size returns)%N ->
  [seq (p.1, Some p.2) | p <- preds] = prescient returns ->
  (forall k, (k.+1 < size returns)%N -> spanning (rows_where (same_quarter (nth x0 returns k).1) returns)) ->
  scores returns preds = Ok [seq ((nth x0 returns k.+1).1,
    Some (ln (normal_density 0 (inflated_moment (rows_where (same_quarter (nth x0 returns k).1) returns)) (nth x0 returns k.+1).2))) | k <- iota 0 (size returns).-1].
Proof. exact: scored. Qed.
Example C114_scored_ex : [/\ seq.uniq [seq r.1 | r <- ex_returns], all (fun p => calendar p.1) ex_returns, [seq (p.1, Some p.2) | p <- ex_preds] = prescient ex_returns,
  (forall k, (k.+1 < size ex_returns)%N -> spanning (rows_where (same_quarter (nth ex_x0 ex_returns k).1) ex_returns)) &
  exists l, scores ex_returns ex_preds = Ok l /\ nth ((0, 0, 0)%N, None) l 2 = ((2024, 4, 1)%N, Some (ln (normal_density 0 (const_mx (28 / 9)%re) (const_mx 1%re : 'cV[R]_1))))].
Proof. exact: ex_scored. Qed.
Print Assumptions C114_scored.

(** Errors: no prediction, a date without return, a singular prediction that is scored; so a quarter with fewer days than assets stops the cell. *)
Theorem C114_errors n (returns : seq (date * 'cV[R]_n)) (predictor : seq (date * 'M[R]_n)) (x0 := ((0, 0, 0)%N, 0)) :
  [/\ scores returns [::] = Raise ValueError,
      forall k, (k < size predictor)%N -> lookup returns (nth x0 predictor k).1 = None -> scores returns predictor = Raise KeyError &
      forall (row : nat -> 'cV[R]_n) k, (forall k, (k < size predictor)%N -> lookup returns (nth x0 predictor k).1 = Some (row k)) ->
        (k.+1 < size predictor)%N -> (nth x0 predictor k).2 \notin unitmx -> scores returns predictor = Raise LinAlgError].
Proof. exact: score_errors. Qed.
Print Assumptions C114_errors.
Theorem C114_short_quarter n (returns : seq (date * 'cV[R]_n)) (preds : seq (date * 'M[R]_n)) (x0 : date * 'cV[R]_n) k :
  seq.uniq [seq r.1 | r <- returns] -> all (fun p => calendar p.1) returns -> [seq (p.1, Some p.2) | p <- preds] = prescient returns ->
  (k.+1 < size returns)%N -> (size (rows_where (same_quarter (nth x0 returns k).1) returns) < n)%N -> scores returns preds = Raise LinAlgError.
Proof. exact: scored_singular. Qed.
Example C114_short_quarter_ex : exists preds, [/\ seq.uniq [seq r.1 | r <- ex_short], all (fun p => calendar p.1) ex_short,
  [seq (p.1, Some p.2) | p <- preds] = prescient ex_short, (1 < size ex_short)%N & (size (rows_where (same_quarter (nth ex_x3 ex_short 0).1) ex_short) < 3)%N].
Proof. exact: ex_short_quarter. Qed.
Print Assumptions C114_short_quarter.

(** C115.  Of all the covariances, the second moment of the days that are scored has the highest likelihood on them, and it is the only one. *)
Theorem C115_best n (S : 'M[R]_n) (rows : seq 'cV[R]_n) : (0 < size rows)%N -> spd (second_moment rows) -> spd S ->
  (total S rows <= total (second_moment rows) rows)%re /\ (total S rows = total (second_moment rows) rows -> S = second_moment rows).
Proof. exact: best. Qed.
Example C115_best_ex : spd (second_moment ex_rows) /\ second_moment ex_rows = const_mx 3%re.
Proof. exact: ex_best. Qed.
Print Assumptions C115_best.

(** So PRESCIENT is not an upper bound: already on its own quarter it is beaten by the plain second moment, unless the quarter's returns are all equal. *)
Theorem C115_not_best n (rows : seq 'cV[R]_n) r1 r2 : r1 \in rows -> r2 \in rows -> r1 <> r2 -> spanning rows ->
  (total (inflated_moment rows) rows < total (second_moment rows) rows)%re.
Proof. exact: not_best. Qed.
Example C115_not_best_ex : [/\ (const_mx 1%re : 'cV[R]_1) \in ex_rows, const_mx 2%re \in ex_rows, (const_mx 1%re : 'cV[R]_1) <> const_mx 2%re & spanning ex_rows].
Proof. exact: ex_not_best. Qed.
Print Assumptions C115_not_best.

(** Over a stretch predicted by one matrix P, the regrets of the second moment of the days scored sum to at most zero, and to less unless P is that matrix. *)
Theorem C115_regret n (returns : seq (date * 'cV[R]_n)) (P : 'M[R]_n) (rows := [seq r.2 | r <- behead returns]) :
  seq.uniq [seq r.1 | r <- returns] -> (1 < size returns)%N -> spd P -> spd (second_moment rows) ->
  exists lp ls reg, [/\ scores returns [seq (r.1, P) | r <- returns] = Ok lp, scores returns [seq (r.1, second_moment rows) | r <- returns] = Ok ls,
    regret lp ls = Ok reg, all (fun p => p.2 != None) reg & (series_sum reg <= 0)%re /\ (P <> second_moment rows -> (series_sum reg < 0)%re)].
Proof. exact: hindsight. Qed.
Example C115_regret_ex : let returns := take 3 ex_returns in let P := const_mx (28 / 9)%re : 'M[R]_1 in
  [/\ seq.uniq [seq r.1 | r <- returns], [seq (r.1, Some P) | r <- returns] = prescient returns, spd P, spd (second_moment [seq r.2 | r <- behead returns]) &
      P <> second_moment [seq r.2 | r <- behead returns]].
Proof. exact: ex_regret. Qed.
Print Assumptions C115_regret.

(** C116.  Other units or another basis of portfolios (returns multiplied by an invertible A, predictions A S A'): every score moves by the same constant,
    the regrets do not change, and PRESCIENT moves along. *)
Theorem C116_scores n (A : 'M[R]_n) (returns : seq (date * 'cV[R]_n)) (predictor : seq (date * 'M[R]_n)) (row : nat -> 'cV[R]_n) (x0 := ((0, 0, 0)%N, 0)) :
  A \in unitmx -> (0 < size predictor)%N -> (forall k, (k < size predictor)%N -> lookup returns (nth x0 predictor k).1 = Some (row k)) ->
  (forall k, (k.+1 < size predictor)%N -> spd (nth x0 predictor k).2) ->
  exists l, scores returns predictor = Ok l /\
    scores (change_assets A returns) (change_cov A predictor) = Ok [seq (p.1, omap (fun s => s - ln (Rabs (\det A)))%re p.2) | p <- l].
Proof. exact: change_scores. Qed.
Print Assumptions C116_scores.
Theorem C116_regret (lp ls : seq (date * option R)) (d : R) :
  regret [seq (p.1, omap (fun s => s - d)%re p.2) | p <- lp] [seq (p.1, omap (fun s => s - d)%re p.2) | p <- ls] = regret lp ls.
Proof. exact: change_regret. Qed.
Print Assumptions C116_regret.
Theorem C116_prescient n (A : 'M[R]_n) (returns : seq (date * 'cV[R]_n)) :
  prescient (change_assets A returns) = [seq (p.1, omap (fun P => A *m P *m A^T) p.2) | p <- prescient returns].
Proof. exact: change_prescient. Qed.
Print Assumptions C116_prescient.
Example C116_ex : (2%re%:M : 'M[R]_1) \in unitmx /\ (forall k, (k < size ex_preds)%N -> lookup ex_returns (nth ((0, 0, 0)%N, 0) ex_preds k).1 = Some (nth ex_x0 ex_returns k).2) /\
  (forall k, (k.+1 < size ex_preds)%N -> spd (nth ((0, 0, 0)%N, 0) ex_preds k).2).
Proof. exact: ex_change. Qed.
