(** * Vocabulary for the properties of return_combination.py. *)
From Coq Require Import Reals ZArith String List.
Set Warnings "-notation-overridden,-ambiguous-paths".
From mathcomp Require Import all_ssreflect all_algebra.
From Verif Require Import RStruct MatR Num Py Spec.
Set Implicit Arguments.
Unset Strict Implicit.
Unset Printing Implicit Defensive.
Import GRing.Theory.
Local Open Scope ring_scope.
Delimit Scope R_scope with re.

(** Weighted mean of the observed values among x_0, ..., x_(t-1): the weight of x_s is a^(t-1-s); None if there is none. *)
Definition seen_weight (a : R) (x : nat -> option R) (t : nat) : R := \sum_(s < t) (if x s is Some _ then a ^+ (t.-1 - s) else 0).
Definition seen_sum (a : R) (x : nat -> option R) (t : nat) : R := \sum_(s < t) (if x s is Some v then a ^+ (t.-1 - s) * v else 0).
Definition past_mean (a : R) (x : nat -> option R) (t : nat) : option R :=
  if [exists s : 'I_t, isSome (x s)] then Some (seen_sum a x t / seen_weight a x t)%re else None.

(** The factor per period whose h-th power is one half. *)
Definition half_decay (h : R) : R := Rpower (/ 2) (/ h).

Section Ridge.
  Context (K : nat).
  Notation vec := 'cV[R]_K.

  (** The share of an observation of age j (0 is the latest) among m observations: halves every 500 days, mean one. *)
  Definition age_weight (j : nat) : R := Rpower (/ 2) (INR j / 500).
  Definition share (m j : nat) : R := (INR m * age_weight j / (\sum_(i < m) age_weight i)%R)%re.
  (** Weighted mean square of the predictions before t, decay 250/251 per day. *)
  Definition mean_square (x : nat -> vec) (t : nat) (k : 'I_K) : R :=
    (\sum_(s < t) (250 / 251)%re ^+ (t.-1 - s) * (x s k 0 * x s k 0)) / (\sum_(s < t) (250 / 251)%re ^+ (t.-1 - s)).
  Definition forecast (x w : vec) : R := \sum_k x k 0 * w k 0.
  (** The weighted ridge problem of date t: the m days before t; returns y, predictions x. *)
  Definition ridge_loss (m : nat) (alpha : R) (y : nat -> R) (x : nat -> vec) (t : nat) (w : vec) : R :=
    \sum_(j < m) (share m j * ((y (t.-1 - j)%N - forecast (x (t.-1 - j)%N) w) * (y (t.-1 - j)%N - forecast (x (t.-1 - j)%N) w)))%re +
    alpha * \sum_k mean_square x t k * (w k 0 * w k 0).
  (** The lasso problem of date t. *)
  Definition lasso_loss (m : nat) (alpha : R) (y : nat -> R) (x : nat -> vec) (t : nat) (w : vec) : R :=
    \sum_(j < m) ((y (t.-1 - j)%N - forecast (x (t.-1 - j)%N) w) * (y (t.-1 - j)%N - forecast (x (t.-1 - j)%N) w))%re +
    alpha * \sum_k Rabs (w k 0).
  Definition minimiser (f : vec -> R) (w : vec) : Prop := forall w', (f w <= f w')%re.
  Definition unique_minimiser (f : vec -> R) (w : vec) : Prop := forall w', w' <> w -> (f w < f w')%re.

  (** Frames: an increasing index that contains all dates of the predictors; every predictor has the same increasing index
      [times]; as many predictors as columns. *)
  Definition good_data (idx : seq Z) (cols : seq (string * seq R)) (times : seq Z) (preds : seq (seq Z * seq vec)) : Prop :=
    increasing idx /\ increasing times /\ (forall c, List.In c cols -> size c.2 = size idx) /\
    (forall p, List.In p preds -> p.1 = times /\ size p.2 = size times) /\ size cols = size preds /\ preds <> [::] /\
    forall t, List.In t times -> List.In t idx.
  (** The return of a column at a date. *)
  Definition return_at (idx : seq Z) (c : seq R) (t : Z) : R := odflt 0 (dict_get Z.eqb (zip idx c) t).
  Definition col_at (cols : seq (string * seq R)) (i : nat) : seq R := (nth (""%string, [::]) cols i).2.
  Definition pred_at (preds : seq (seq Z * seq vec)) (i s : nat) : vec := nth 0 (nth ([::], [::]) preds i).2 s.
  (** No return of a date between the first and the last-but-one date of the predictors that the predictors do not have. *)
  Definition aligned (idx times : seq Z) : Prop :=
    forall u s, List.In u idx -> (s.+1 < size times)%N -> Z.le (nth Z0 times 0) u -> Z.le u (nth Z0 times s) -> List.In u times.
  (** Columns of the predictors in other units: column k of predictor i times d i k. *)
  Definition rescaled (d : nat -> 'I_K -> R) (preds preds' : seq (seq Z * seq vec)) : Prop :=
    size preds' = size preds /\
    forall i, (i < size preds)%N ->
      (nth ([::], [::]) preds' i).1 = (nth ([::], [::]) preds i).1 /\ size (nth ([::], [::]) preds' i).2 = size (nth ([::], [::]) preds i).2 /\
      forall s k, (s < size (nth ([::], [::]) preds i).2)%N -> pred_at preds' i s k 0 = d i k * pred_at preds i s k 0.
  (** As many columns of the right length. *)
  Definition same_shape (idx : seq Z) (cols cols' : seq (string * seq R)) : Prop :=
    size cols' = size cols /\ forall c, List.In c cols' -> size c.2 = size idx.
  (** cols = a cols1 + b cols2 *)
  Definition mixed (a b : R) (cols1 cols2 cols : seq (string * seq R)) : Prop :=
    forall i j, nth 0 (col_at cols i) j = a * nth 0 (col_at cols1 i) j + b * nth 0 (col_at cols2 i) j.
End Ridge.

(** Statistics of a table of T dates and n assets. *)
Section Table.
  Context (T n : nat).
  Implicit Types f g : 'I_T -> 'I_n -> R.
  Definition table_mean f : R := ((\sum_t \sum_i f t i)%R / INR (T * n))%re.
  Definition table_rmse f g : R := sqrt (table_mean (fun t i => ((f t i - g t i) * (f t i - g t i))%re)).
  Definition table_cov f g : R := table_mean (fun t i => ((f t i - table_mean f) * (g t i - table_mean g))%re).
  (** Pearson's correlation; None if one of the two is constant. *)
  Definition table_corr f g : option R :=
    if Req_EM_T (table_cov f f) 0 then None else if Req_EM_T (table_cov g g) 0 then None else
    Some (table_cov f g / (sqrt (table_cov f f) * sqrt (table_cov g g)))%re.
End Table.
