(** * Properties of experiments/utils/return_combination.py (C47, C48, C53, C89-C95).

    Model: RetComb.v (exact arithmetic).  Vocabulary: SpecRet.v. *)
From Coq Require Import Reals Lra ZArith String List Lia.
Set Warnings "-notation-overridden,-ambiguous-paths".
From mathcomp Require Import all_ssreflect all_algebra.
From Verif Require Import RStruct MatR Num Py Spec Combination RetComb SpecRet RetMain RetInv RetPred RetLasso RetExist RetTune RetFinal.
Set Implicit Arguments.
Unset Strict Implicit.
Unset Printing Implicit Defensive.
Import GRing.Theory.
Local Open Scope ring_scope.
Delimit Scope R_scope with re.
Delimit Scope Z_scope with z.

(** C47: the weights of every date are the unique solution of the ridge problem of the m days before it. *)
Theorem C47_ridge : forall K idx cols times (preds : seq (seq Z * seq 'cV[R]_K)) m alpha out,
  good_data idx cols times preds -> (0 < m)%N -> (0 <= alpha)%re -> fit idx cols preds m alpha = Ok out ->
  out.1.1 = drop m times /\ map fst out.1.2 = map fst cols /\ size out.2 = size cols /\
  forall i t, (i < size cols)%N -> (m <= t < size times)%N ->
    let w := nth 0 (nth [::] out.2 i) (t - m) in
    unique_minimiser (ridge_loss m alpha (fun s => return_at idx (col_at cols i) (nth Z0 times s)) (pred_at preds i) t) w /\
    nth 0 (col_at out.1.2 i) (t - m) = forecast (pred_at preds i t) w /\
    size (nth [::] out.2 i) = (size times - m)%N /\ size (col_at out.1.2 i) = (size times - m)%N.
Proof. exact fit_main. Qed.
Print Assumptions C47_ridge.

(** Two runs, possibly of different length and with other columns: the weights of date t depend only on the returns of this
    column on the m days before t and on its predictions before t; the forecast also on the prediction for t. *)
Theorem C47_causal : forall K idx idx' cols cols' times times' (preds preds' : seq (seq Z * seq 'cV[R]_K)) m alpha out out',
  good_data idx cols times preds -> good_data idx' cols' times' preds' -> (0 < m)%N ->
  fit idx cols preds m alpha = Ok out -> fit idx' cols' preds' m alpha = Ok out' ->
  forall i i' t, (i < size cols)%N -> (i' < size cols')%N -> (m <= t)%N -> (t < size times)%N -> (t < size times')%N ->
  (forall s, (t - m <= s < t)%N -> return_at idx (col_at cols i) (nth Z0 times s) = return_at idx' (col_at cols' i') (nth Z0 times' s)) ->
  (forall s, (s < t)%N -> pred_at preds i s = pred_at preds' i' s) ->
  nth 0 (nth [::] out.2 i) (t - m) = nth 0 (nth [::] out'.2 i') (t - m) /\
  (pred_at preds i t = pred_at preds' i' t -> nth 0 (col_at out.1.2 i) (t - m) = nth 0 (col_at out'.1.2 i') (t - m)).
Proof. exact fit_causal. Qed.
Print Assumptions C47_causal.

(** With alpha > 0 and no column that is zero on all of the first m days, fit succeeds if the returns have no other dates
    than the predictors in between ... *)
Theorem C47_total : forall K idx cols times (preds : seq (seq Z * seq 'cV[R]_K)) m alpha,
  good_data idx cols times preds -> (0 < m)%N -> (0 < alpha)%re ->
  (forall i, (i < size cols)%N -> forall k, exists2 s, (s < m)%N & pred_at preds i s k 0 <> 0) -> aligned idx times ->
  exists out, fit idx cols preds m alpha = Ok out.
Proof. exact fit_total. Qed.
Print Assumptions C47_total.

(** ... and otherwise (m >= 2) raises ValueError, although the only check is that the predictors' dates are among those of
    the returns. *)
Theorem C47_misaligned : forall K idx cols times (preds : seq (seq Z * seq 'cV[R]_K)) m alpha,
  good_data idx cols times preds -> (0 < m)%N -> (0 < alpha)%re ->
  (forall i, (i < size cols)%N -> forall k, exists2 s, (s < m)%N & pred_at preds i s k 0 <> 0) ->
  (1 < m)%N -> (m < size times)%N -> ~ aligned idx times -> fit idx cols preds m alpha = Raise ValueError.
Proof. exact fit_misaligned. Qed.
Print Assumptions C47_misaligned.

Theorem C47_bad_input : forall K idx cols (p0 : seq Z * seq 'cV[R]_K) l1 p l2 m alpha,
  (forall q, List.In q l1 -> q.1 = p0.1) ->
  fit (K := K) idx cols [::] m alpha = Raise IndexError /\
  (size p.1 <> size p0.1 -> fit idx cols (p0 :: l1 ++ p :: l2) m alpha = Raise ValueError) /\
  (size p.1 = size p0.1 -> p.1 <> p0.1 -> fit idx cols (p0 :: l1 ++ p :: l2) m alpha = Raise AssertionError) /\
  (forall t, List.In t p0.1 -> ~ List.In t idx -> fit idx cols (p0 :: l1) m alpha = Raise AssertionError).
Proof. exact fit_errors. Qed.
Print Assumptions C47_bad_input.

(** C48 *)
Theorem C48_scales : forall K (xs : seq 'cV[R]_K) (k : 'I_K), size (get_scales xs k) = size xs /\
  nth None (get_scales xs k) 0 = None /\
  forall t, (0 < t < size xs)%N -> nth None (get_scales xs k) t = Some (mean_square (fun s => nth 0 xs s) t k).
Proof. exact scales_main. Qed.
Print Assumptions C48_scales.

(** The weight 250/251 per day is halved after 174 days; after 250 days it is below 2/5. *)
Theorem C48_not_half_life : ((250 / 251) ^ 174 < / 2 < (250 / 251) ^ 173)%re /\ ((250 / 251) ^ 250 < 2 / 5)%re.
Proof. exact not_half_life. Qed.
Print Assumptions C48_not_half_life.

(** C53 *)
Theorem C53_parts : forall rows i j, (i < size rows)%N -> (j < size (nth [::] rows i))%N ->
  let row := nth [::] rows i in let out := nth [::] (feature_engineer rows) i in
  size out = (2 * size row)%N /\
  match nth None row j with
  | Some v => nth None out j = Some (Rmax v 0) /\ nth None out (size row + j) = Some (Rmin v 0)
  | None => nth None out j = None /\ nth None out (size row + j) = None
  end.
Proof. exact feature_parts. Qed.
Print Assumptions C53_parts.

Theorem C53_split : forall v, (Rmax v 0 + Rmin v 0 = v)%re /\ (0 <= Rmax v 0)%re /\ (Rmin v 0 <= 0)%re /\ (Rmax v 0 * Rmin v 0 = 0)%re.
Proof. move=> v. rewrite /Rmax /Rmin. case: Rle_dec => H; split; try split; try split; lra. Qed.
Print Assumptions C53_split.

(** C89: the units of the predictors do not matter. *)
Theorem C89_units : forall K d idx cols times (preds preds' : seq (seq Z * seq 'cV[R]_K)) m alpha,
  good_data idx cols times preds -> (0 < m)%N -> (forall i k, (i < size preds)%N -> d i k <> 0) -> rescaled d preds preds' ->
  (forall o, fit idx cols preds m alpha = Ok o -> exists o', fit idx cols preds' m alpha = Ok o' /\ o'.1 = o.1 /\
     forall i j k, (i < size preds)%N -> (j < size times - m)%N -> d i k * nth 0 (nth [::] o'.2 i) j k 0 = nth 0 (nth [::] o.2 i) j k 0) /\
  (forall e, fit idx cols preds m alpha = Raise e -> fit idx cols preds' m alpha = Raise e).
Proof. exact units_main. Qed.
Print Assumptions C89_units.

(** C90: weights and forecasts are linear in the returns; whether fit raises does not depend on their values. *)
Theorem C90_linear : forall K a b idx cols1 cols2 cols times (preds : seq (seq Z * seq 'cV[R]_K)) m alpha o1,
  good_data idx cols1 times preds -> (0 < m)%N -> same_shape idx cols1 cols2 -> same_shape idx cols1 cols -> mixed a b cols1 cols2 cols ->
  fit idx cols1 preds m alpha = Ok o1 ->
  exists o2 o, fit idx cols2 preds m alpha = Ok o2 /\ fit idx cols preds m alpha = Ok o /\
  forall i j, (i < size cols1)%N -> (j < size times - m)%N ->
    nth 0 (nth [::] o.2 i) j = a *: nth 0 (nth [::] o1.2 i) j + b *: nth 0 (nth [::] o2.2 i) j /\
    nth 0 (col_at o.1.2 i) j = a * nth 0 (col_at o1.1.2 i) j + b * nth 0 (col_at o2.1.2 i) j.
Proof. exact linear_main. Qed.
Print Assumptions C90_linear.

Theorem C90_errors : forall K idx cols cols' times (preds : seq (seq Z * seq 'cV[R]_K)) m alpha e,
  good_data idx cols times preds -> (0 < m)%N -> same_shape idx cols cols' -> fit idx cols preds m alpha = Raise e -> fit idx cols' preds m alpha = Raise e.
Proof. exact shape_errors. Qed.
Print Assumptions C90_errors.

(** C91: the prediction for a date is the weighted mean of the returns observed before it; the weights halve every h days. *)
Theorem C91_value : forall idx xs hs, List.NoDup idx -> size xs = size idx -> (forall h, List.In h hs -> (0 < h)%re) -> List.NoDup hs ->
  exists cols, ewma_predictors idx xs hs = Ok (behead idx, cols) /\ map fst cols = hs /\
  forall j t, (j < size hs)%N -> (0 < t < size idx)%N ->
    size (nth (0, [::]) cols j).2 = (size idx).-1 /\
    nth None (nth (0, [::]) cols j).2 t.-1 = past_mean (half_decay (nth 0 hs j)) (fun s => nth None xs s) t.
Proof. exact ewma_entries. Qed.
Print Assumptions C91_value.

Theorem C91_past_only : forall a (x : nat -> option R) t, (0 < a)%re ->
  (forall x', (forall s, (s < t)%N -> x s = x' s) -> past_mean a x t = past_mean a x' t) /\
  (forall lo hi v, (forall s u, (s < t)%N -> x s = Some u -> (lo <= u <= hi)%re) -> past_mean a x t = Some v -> (lo <= v <= hi)%re).
Proof. exact ewma_facts. Qed.
Print Assumptions C91_past_only.

Theorem C91_half_life : forall n, (0 < n)%N -> half_decay (INR n) ^+ n = (/ 2)%re.
Proof. exact half_power. Qed.
Print Assumptions C91_half_life.

Theorem C91_bad_half_life : forall idx xs hs h, List.NoDup idx -> List.In h hs -> (h <= 0)%re -> ewma_predictors idx xs hs = Raise ValueError.
Proof. exact ewma_error. Qed.
Print Assumptions C91_bad_half_life.

(** C92: daily_predictors; a lag that is zero or negative gives a prediction that is not known before the date. *)
Theorem C92_value : forall idx xs lags, List.NoDup idx -> size xs = size idx -> List.NoDup lags ->
  exists cols, daily_predictors idx xs lags = Ok (idx, cols) /\ map fst cols = lags /\
  forall j t, (j < size lags)%N -> (t < size idx)%N ->
    let s := (Z.of_nat t - nth Z0 lags j)%z in
    nth None (nth (Z0, [::]) cols j).2 t = if Z.leb 0 s then nth None xs (Z.to_nat s) else None.
Proof. exact daily_entries. Qed.
Print Assumptions C92_value.

(** C93: ReturnCombinatorOld. *)
Theorem C93_lasso : forall K solve idx c times (preds : seq 'cV[R]_K) m alpha out,
  increasing idx -> increasing times -> size c = size idx -> size preds = size times -> (forall t, List.In t times -> List.In t idx) -> (0 < m)%N ->
  (forall f w, solve f = LSolved w -> minimiser f w) ->
  old_fit solve (Some (mkOld K m alpha)) idx c times preds = Ok out ->
  out.1.1 = drop m times /\ size out.1.2 = (size times - m)%N /\ size out.2 = (size times - m)%N /\
  forall t, (m <= t < size times)%N ->
    match nth None out.2 (t - m) with
    | Some w => minimiser (lasso_loss m alpha (fun s => return_at idx c (nth Z0 times s)) (fun s => nth 0 preds s) t) w /\
                nth 0 out.1.2 (t - m) = forecast (nth 0 preds t) w
    | None => nth 0 out.1.2 (t - m) = 0
    end.
Proof. exact old_fit_ok. Qed.
Print Assumptions C93_lasso.

Theorem C93_large_penalty : forall K m alpha y (x : nat -> 'cV[R]_K) t w,
  (forall k, (2 * Rabs (\sum_(j < m) y (t.-1 - j)%N * x (t.-1 - j)%N k ord0)%R < alpha)%re) ->
  minimiser (lasso_loss m alpha y x t) w -> w = 0.
Proof. exact lasso_zero. Qed.
Print Assumptions C93_large_penalty.

(** The problem of a date has a solution for every penalty >= 0, also if predictors are constant, equal or more than the days;
    all solutions make the same forecasts on the days they are fitted to, and with a positive penalty have the same 1-norm. *)
Theorem C93_solvable : forall K m alpha y (x : nat -> 'cV[R]_K) t, (0 <= alpha)%re -> exists w, minimiser (lasso_loss m alpha y x t) w.
Proof. exact lasso_solvable. Qed.
Print Assumptions C93_solvable.
Theorem C93_same_fit : forall K m alpha y (x : nat -> 'cV[R]_K) t w w', (0 <= alpha)%re ->
  minimiser (lasso_loss m alpha y x t) w -> minimiser (lasso_loss m alpha y x t) w' ->
  (forall j, (j < m)%N -> forecast (x (t.-1 - j)%N) w = forecast (x (t.-1 - j)%N) w') /\ ((0 < alpha)%re -> \sum_k Rabs (w k 0) = \sum_k Rabs (w' k 0)).
Proof. exact lasso_fit_unique. Qed.
Print Assumptions C93_same_fit.

(** C94: tune_alpha tries every alpha by itself. *)
Theorem C94_grid : forall K idx cols times (preds : seq (seq Z * seq 'cV[R]_K)) alphas m out,
  good_data idx cols times preds -> (0 < m)%N -> tune_alpha idx cols preds alphas m = Ok out ->
  let: (grid, corrs, rmses, weights) := out in
  grid = alphas /\ size corrs = size alphas /\ size rmses = size alphas /\ size weights = size alphas /\
  forall a, (a < size alphas)%N -> exists fitted, fit idx cols preds m (nth 0 alphas a) = Ok fitted /\ nth [::] weights a = fitted.2 /\
    let hat (t : 'I_(size times - m)) (i : 'I_(size cols)) := nth 0 (col_at fitted.1.2 i) t in
    let real (t : 'I_(size times - m)) (i : 'I_(size cols)) := return_at idx (col_at cols i) (nth Z0 times (m + t)) in
    nth 0 rmses a = table_rmse hat real /\ nth None corrs a = table_corr hat real.
Proof. exact tune_grid. Qed.
Print Assumptions C94_grid.

Theorem C94_range : forall T n (f g : 'I_T -> 'I_n -> R), (0 < T * n)%N -> forall c, table_corr f g = Some c -> (-1 <= c <= 1)%re.
Proof. exact corr_range. Qed.
Print Assumptions C94_range.

(** C95: ewma_return_combination and ReturnCombinatorOld agree wherever a solution exists; without one the former raises. *)
Theorem C95_agree : forall K solve idx c (preds : seq 'cV[R]_K) m alpha, increasing idx -> (0 < m)%N -> forall hats W,
  ewma_return_combination solve idx c idx preds alpha m = Ok (drop m idx, hats, W) <->
  old_fit solve (Some (mkOld K m alpha)) idx c idx preds = Ok (drop m idx, hats, map Some W).
Proof. exact old_agrees. Qed.
Print Assumptions C95_agree.

Theorem C95_no_solution : forall K solve idx c (preds : seq 'cV[R]_K) m alpha out, increasing idx -> (0 < m)%N ->
  old_fit solve (Some (mkOld K m alpha)) idx c idx preds = Ok out -> List.In None out.2 ->
  ewma_return_combination solve idx c idx preds alpha m = Raise AttributeError.
Proof. exact new_needs_solution. Qed.
Print Assumptions C95_no_solution.

(** So with a solver that finds a solution whenever there is one, ewma_return_combination always returns; for a negative
    penalty it always raises. *)
Theorem C95_total : forall K (solve : lsolver K) idx c preds m alpha, increasing idx -> size c = size idx -> size preds = size idx -> (0 < m)%N -> (0 <= alpha)%re ->
  (forall f w, solve f = LSolved w -> minimiser f w) /\ (forall f, solve f <> LFailed K) /\ (forall f w, minimiser f w -> solve f <> LNone K) ->
  exists out, ewma_return_combination solve idx c idx preds alpha m = Ok out /\
    out.1.1 = drop m idx /\ size out.1.2 = (size idx - m)%N /\ size out.2 = (size idx - m)%N /\
    forall t, (m <= t < size idx)%N ->
      minimiser (lasso_loss m alpha (fun s => return_at idx c (nth Z0 idx s)) (fun s => nth 0 preds s) t) (nth 0 out.2 (t - m)) /\
      nth 0 out.1.2 (t - m) = forecast (nth 0 preds t) (nth 0 out.2 (t - m)).
Proof. exact total_run. Qed.
Print Assumptions C95_total.
Theorem C95_negative_penalty : forall K (solve : lsolver K) idx c preds m alpha, increasing idx -> size c = size idx -> size preds = size idx -> (0 < m)%N ->
  (alpha < 0)%re -> (m < size idx)%N -> ewma_return_combination solve idx c idx preds alpha m = Raise DCPError.
Proof. exact neg_run. Qed.
Print Assumptions C95_negative_penalty.
