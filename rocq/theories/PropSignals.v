(** * Properties of the signal helpers of the notebooks (C108 - C111).

    Model: Signals.v.  Vocabulary: SpecSignals.v, and [seen_sum], [seen_weight], [half_decay] of SpecRet.v. *)
From Coq Require Import Reals Lra ZArith List Lia.
Set Warnings "-notation-overridden,-ambiguous-paths".
From mathcomp Require Import all_ssreflect all_algebra.
From Verif Require Import RStruct MatR Num Py RetComb SpecRet Signals SpecSignals SignalQuant SignalTune SignalSign SignalAuto SignalEx.
Set Implicit Arguments.
Unset Strict Implicit.
Unset Printing Implicit Defensive.
Import GRing.Theory.
Local Open Scope ring_scope.
Delimit Scope R_scope with re.
Delimit Scope Z_scope with z.

(** C108: tune_returns. *)
Theorem C108_values : forall lower upper rows out, tune_returns lower upper rows = Ok out ->
  [seq size r | r <- out] = [seq size r | r <- rows] /\
  forall t, (t < size rows)%N -> let row := nth [::] rows t in
    (values row = [::] /\ nth [::] out t = row) \/
    exists a b, is_quantile (values row) lower a /\ is_quantile (values row) upper b /\
      forall i, (i < size row)%N -> cell None out t i = omap (into (Rmin a b) (Rmax a b)) (cell None rows t i).
Proof. exact tune_values. Qed.
Print Assumptions C108_values.

(** The quantile of C108_values is unique. *)
Theorem C108_quantile : forall l q v w, is_quantile l q v -> is_quantile l q w -> v = w.
Proof. exact is_quantile_unique. Qed.
Print Assumptions C108_quantile.

Theorem C108_total : forall lower upper rows, (0 <= lower <= 1)%re -> (0 <= upper <= 1)%re ->
  exists out, tune_returns lower upper rows = Ok out.
Proof. exact tune_total. Qed.
Print Assumptions C108_total.

Theorem C108_errors : forall lower upper rows, ~ ((0 <= lower <= 1)%re /\ (0 <= upper <= 1)%re) -> (0 < size rows)%N ->
  tune_returns lower upper rows = Raise ValueError.
Proof. exact tune_raise. Qed.
Print Assumptions C108_errors.

(** The ranking of the assets of a day survives. *)
Theorem C108_order : forall lower upper rows out t i j u v, tune_returns lower upper rows = Ok out ->
  cell None rows t i = Some u -> cell None rows t j = Some v -> (u <= v)%re ->
  exists u' v', cell None out t i = Some u' /\ cell None out t j = Some v' /\ (u' <= v')%re.
Proof. exact tune_order. Qed.
Print Assumptions C108_order.

(** How many entries change. *)
Theorem C108_share : forall lower upper rows out t a b, tune_returns lower upper rows = Ok out -> (lower <= upper)%re ->
  let row := nth [::] rows t in is_quantile (values row) lower a -> is_quantile (values row) upper b ->
  (t < size rows)%N ->
  (a <= b)%re /\
  (INR (count (fun x => if x is Some v then Rltb v a else false) row) < lower * (INR (size (values row)) - 1) + 1)%re /\
  (INR (count (fun x => if x is Some v then Rltb b v else false) row) < (1 - upper) * (INR (size (values row)) - 1) + 1)%re.
Proof. exact tune_share. Qed.
Print Assumptions C108_share.

Theorem C108_units : forall c d lower upper rows out, (0 < c)%re -> tune_returns lower upper rows = Ok out ->
  tune_returns lower upper (map_table (fun x => c * x + d)%re rows) = Ok (map_table (fun x => c * x + d)%re out).
Proof. exact tune_units. Qed.
Print Assumptions C108_units.

(** Long and short are treated alike (take lower = 0.4, upper = 0.6). *)
Theorem C108_mirror : forall lower upper rows out, tune_returns lower upper rows = Ok out ->
  tune_returns (1 - upper)%re (1 - lower)%re (map_table Ropp rows) = Ok (map_table Ropp out).
Proof. exact tune_mirror. Qed.
Print Assumptions C108_mirror.

Theorem C108_swap : forall lower upper rows, tune_returns lower upper rows = tune_returns upper lower rows.
Proof. exact tune_swap. Qed.
Print Assumptions C108_swap.

Theorem C108_assets : forall p lower upper rows out, (forall row, List.In row rows -> perm_eq p (iota 0 (size row))) ->
  tune_returns lower upper rows = Ok out -> tune_returns lower upper (rearrange None p rows) = Ok (rearrange None p out).
Proof. exact tune_assets. Qed.
Print Assumptions C108_assets.

Theorem C108_no_look_ahead : forall lower upper rows out k, tune_returns lower upper rows = Ok out ->
  tune_returns lower upper (take k rows) = Ok (take k out).
Proof. exact tune_prefix. Qed.
Print Assumptions C108_no_look_ahead.

Theorem C108_no_cut : forall rows, tune_returns 0 1 rows = Ok rows.
Proof. exact tune_full. Qed.
Print Assumptions C108_no_cut.

(** C109: tune_returns2. *)
Theorem C109_values : forall rows, exists out, tune_returns2 rows = Ok out /\ [seq size r | r <- out] = [seq size r | r <- rows] /\
  forall t, (t < size rows)%N -> let row := nth [::] rows t in
    (values row = [::] /\ nth [::] out t = nseq (size row) 0%re) \/
    exists a b, is_quantile (values row) (1 / 10) a /\ is_quantile (values row) (9 / 10) b /\ (a <= b)%re /\
      forall i, (i < size row)%N -> match cell None rows t i with
        | None => cell 0%re out t i = 0%re
        | Some v => ((v < a)%re /\ cell 0%re out t i = (- 1)%re) \/ ((b < v)%re /\ cell 0%re out t i = 1%re) \/
                    ((a <= v <= b)%re /\ cell 0%re out t i = 0%re)
        end.
Proof. exact tune2_values. Qed.
Print Assumptions C109_values.

(** About a tenth of the assets on each side, not the five percent of the docstring. *)
Theorem C109_counts : forall rows out t, tune_returns2 rows = Ok out -> (t < size rows)%N -> let n := size (values (nth [::] rows t)) in
  let ones := count (pred1 1%re) (nth [::] out t) in let minus := count (pred1 (- 1)%re) (nth [::] out t) in (0 < n)%N ->
  (INR ones < (INR n - 1) / 10 + 1)%re /\ (INR minus < (INR n - 1) / 10 + 1)%re /\
  (uniq (values (nth [::] rows t)) -> ((INR n - 1) / 10 <= INR ones)%re /\ ((INR n - 1) / 10 <= INR minus)%re).
Proof. exact tune2_counts. Qed.
Print Assumptions C109_counts.

(** The sign is not looked at: the largest of at least two different values becomes 1 and the smallest -1. *)
Theorem C109_any_sign : forall rows out t, tune_returns2 rows = Ok out -> (t < size rows)%N ->
  uniq (values (nth [::] rows t)) -> (1 < size (values (nth [::] rows t)))%N ->
  (exists i v, cell None rows t i = Some v /\ cell 0%re out t i = 1%re /\ forall w, w \in values (nth [::] rows t) -> (w <= v)%re) /\
  (exists i v, cell None rows t i = Some v /\ cell 0%re out t i = (- 1)%re /\ forall w, w \in values (nth [::] rows t) -> (v <= w)%re).
Proof. exact tune2_any_sign. Qed.
Print Assumptions C109_any_sign.

Theorem C109_units : forall c d rows, (0 < c)%re -> tune_returns2 (map_table (fun x => c * x + d)%re rows) = tune_returns2 rows.
Proof. exact tune2_units. Qed.
Print Assumptions C109_units.

Theorem C109_mirror : forall rows out, tune_returns2 rows = Ok out ->
  tune_returns2 (map_table Ropp rows) = Ok [seq [seq (- x)%re | x <- row] | row <- out].
Proof. exact tune2_mirror. Qed.
Print Assumptions C109_mirror.

(** C110: get_sign_prediction. *)
Theorem C110_outcome : forall argsort rows,
  ((exists2 r, r \in rows & (size r < 10)%N) /\ get_sign_prediction argsort rows = Raise ValueError) \/
  ((forall r, r \in rows -> (10 <= size r)%N) /\ exists out, get_sign_prediction argsort rows = Ok out /\ [seq size r | r <- out] = [seq size r | r <- rows]).
Proof. exact sign_outcome. Qed.
Print Assumptions C110_outcome.

Theorem C110_values : forall argsort rows out t i, get_sign_prediction argsort rows = Ok out ->
  (t < size rows)%N -> (i < size (nth [::] rows t))%N ->
  cell None out t i = Some 1%re \/ cell None out t i = Some (- 1)%re \/ cell None out t i = Some 0%re.
Proof. exact sign_values. Qed.
Print Assumptions C110_values.

(** 1 for the ten largest if positive, -1 for the ten smallest if negative (NaN counts as largest). *)
Theorem C110_signals : forall argsort, sorts argsort -> forall rows out t i, get_sign_prediction argsort rows = Ok out -> (t < size rows)%N ->
  let row := nth [::] rows t in (i < size row)%N -> (20 <= size row)%N -> small row ->
  let x := nth None row i in
  (cell None out t i = Some 1%re -> (exists2 v, x = Some v & (0 < v)%re) /\ (count (fun y => ~~ leo y x) row < 10)%N) /\
  ((exists2 v, x = Some v & (0 < v)%re) -> (count (fun y => leo x y) row <= 10)%N -> cell None out t i = Some 1%re) /\
  (cell None out t i = Some (- 1)%re -> (exists2 v, x = Some v & (v < 0)%re) /\ (count (fun y => ~~ leo x y) row < 10)%N) /\
  ((exists2 v, x = Some v & (v < 0)%re) -> (count (fun y => leo y x) row <= 10)%N -> cell None out t i = Some (- 1)%re).
Proof. exact sign_signals. Qed.
Print Assumptions C110_signals.

Theorem C110_counts : forall argsort, sorts argsort -> forall rows out t, get_sign_prediction argsort rows = Ok out -> (t < size rows)%N ->
  let row := nth [::] rows t in (20 <= size row)%N -> small row ->
  count (pred1 (Some 1%re)) (nth [::] out t) = minn (10 - n_nan row) (n_pos row) /\
  count (pred1 (Some (- 1)%re)) (nth [::] out t) = minn 10 (n_neg row).
Proof. exact sign_counts. Qed.
Print Assumptions C110_counts.

(** Fewer than 20 assets: the two steps get in each other's way; with ten assets there is no signal. *)
Theorem C110_narrow : forall argsort, sorts argsort -> forall rows out t, get_sign_prediction argsort rows = Ok out -> (t < size rows)%N ->
  let row := nth [::] rows t in
  (count (pred1 (Some 1%re)) (nth [::] out t) <= size row - 10)%N /\
  (count (pred1 (Some (- 1)%re)) (nth [::] out t) <= size row - 10)%N.
Proof. exact sign_narrow. Qed.
Print Assumptions C110_narrow.

(** Units matter: if every forecast of a day exceeds 1 (returns in percent, say), that day has no signal. *)
Theorem C110_large_forecasts : forall argsort, sorts argsort -> forall rows out t, get_sign_prediction argsort rows = Ok out -> (t < size rows)%N ->
  let row := nth [::] rows t in (forall x, x \in row -> exists2 v, x = Some v & (1 < v)%re) -> nth [::] out t = nseq (size row) (Some 0%re).
Proof. exact sign_large. Qed.
Print Assumptions C110_large_forecasts.

(** C111: get_moving_autocorrelations. *)
Theorem C111_range : forall h x y out t, moving_autocorrelation h x y = Ok out -> size x = size y -> (t < size x)%N ->
  let X s := nth None x s in let Y s := nth None y s in let XY s := mul_opt (X s) (Y s) in
  let W z := seen_weight (half_decay h) z t.+1 in let S z := seen_sum (half_decay h) z t.+1 in
  match nth None out t with
  | Some rho => (0 < W XY)%re /\ (0 < S (fun s => mul_opt (X s) (X s)))%re /\ (0 < S (fun s => mul_opt (Y s) (Y s)))%re /\
      (rho * (sqrt (S (fun s => mul_opt (X s) (X s)) / W X) * sqrt (S (fun s => mul_opt (Y s) (Y s)) / W Y)) = S XY / W XY)%re /\
      (Rabs rho <= sqrt (W X * W Y) / W XY)%re
  | None => (forall s, (s <= t)%N -> XY s = None) \/
      (forall s v, (s <= t)%N -> X s = Some v -> v = 0) \/ (forall s v, (s <= t)%N -> Y s = Some v -> v = 0)
  end.
Proof. exact moving_range. Qed.
Print Assumptions C111_range.

(** Without missing values: a correlation. *)
Theorem C111_full : forall h x y out t rho, moving_autocorrelation h x y = Ok out -> size x = size y -> None \notin x -> None \notin y ->
  (t < size x)%N -> nth None out t = Some rho -> (-1 <= rho <= 1)%re.
Proof. exact moving_full. Qed.
Print Assumptions C111_full.

(** Used with the returns of the day before, whose first entry is missing: NaN on the first day, then this bound. *)
Theorem C111_lag : forall h x out, moving_autocorrelation h x (shift_series 1%z x) = Ok out -> None \notin x ->
  (0 < size x -> nth None out 0 = None)%N /\
  forall t rho, (0 < t)%N -> (t < size x)%N -> nth None out t = Some rho ->
   (Rabs rho <= sqrt (1 + half_decay h ^+ t / (\sum_(s < t) half_decay h ^+ s)%R))%re.
Proof. exact moving_lag. Qed.
Print Assumptions C111_lag.

(** ... and it does exceed 1, for every half-life. *)
Theorem C111_exceeds_one : forall h, (0 < h)%re ->
  exists out rho, moving_autocorrelation h [:: Some 1%re; Some 2%re] (shift_series 1%z [:: Some 1%re; Some 2%re]) = Ok out /\
  nth None out 1 = Some rho /\ (1 < rho)%re.
Proof. exact moving_exceeds. Qed.
Print Assumptions C111_exceeds_one.

Theorem C111_no_look_ahead : forall h x y out k, moving_autocorrelation h x y = Ok out -> size x = size y ->
  moving_autocorrelation h (take k x) (take k y) = Ok (take k out).
Proof. exact moving_prefix. Qed.
Print Assumptions C111_no_look_ahead.

Theorem C111_units : forall h x y out c d, moving_autocorrelation h x y = Ok out -> size x = size y -> c <> 0%re -> d <> 0%re ->
  moving_autocorrelation h [seq omap (fun v => (c * v)%re) u | u <- x] [seq omap (fun v => (d * v)%re) u | u <- y] =
  Ok [seq omap (fun rho => (c * d / (Rabs c * Rabs d) * rho)%re) r | r <- out].
Proof. exact moving_units. Qed.
Print Assumptions C111_units.

Theorem C111_outcome : forall h x y, ((0 < h)%re -> exists out, moving_autocorrelation h x y = Ok out) /\
  ((h <= 0)%re -> moving_autocorrelation h x y = Raise ValueError).
Proof. exact moving_outcome. Qed.
Print Assumptions C111_outcome.

(** ** Concrete cases *)

(** Five assets, 40th and 60th percentile: 1 2 3 4 5 becomes 2.6 2.6 3 3.4 3.4; a NaN stays. *)
Example ex_tune : exists out, tune_returns (2 / 5) (3 / 5) [:: [:: Some 5%re; Some 1%re; None; Some 2%re; Some 3%re; Some 4%re]] = Ok out /\
  cell None out 0 0 = Some (17 / 5)%re /\ cell None out 0 1 = Some (13 / 5)%re /\ cell None out 0 2 = None /\ cell None out 0 4 = Some 3%re.
Proof. exact tune_example. Qed.
(** Tuning twice squeezes further: not idempotent. *)
Example ex_tune_twice : is_quantile [:: 13 / 5; 13 / 5; 3; 17 / 5; 17 / 5]%re (2 / 5) (71 / 25).
Proof. exact twice_example. Qed.
(** Rows that meet the hypotheses of C110: 12 assets at 1/2 and 12 at -1/2. *)
Example ex_argsort : sorts merge_argsort.
Proof. exact merge_argsort_sorts. Qed.
Example ex_sign : let rows := [:: nseq 12 (Some (1 / 2)%re) ++ nseq 12 (Some (- (1 / 2))%re)] in
  exists out, get_sign_prediction merge_argsort rows = Ok out /\
  count (pred1 (Some 1%re)) (nth [::] out 0) = 10%N /\ count (pred1 (Some (- 1)%re)) (nth [::] out 0) = 10%N.
Proof. exact sign_example. Qed.
(** The same forecasts in percent: no signal. *)
Example ex_sign_percent : let rows := [:: nseq 12 (Some 50%re) ++ nseq 12 (Some 20%re)] in
  get_sign_prediction merge_argsort rows = Ok [:: nseq 24 (Some 0%re)].
Proof. exact sign_percent_example. Qed.
Example ex_auto : exists out rho, moving_autocorrelation 1 [:: Some 1%re; Some 2%re] [:: Some 3%re; Some 6%re] = Ok out /\ nth None out 1 = Some rho /\ rho = 1%re.
Proof. exact auto_example. Qed.
