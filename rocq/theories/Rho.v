(** * construct_rho (experiments/utils/trading_model.py:19-30): model.
    A frame is its list of rows, oldest first; NaN is [None]; infinite entries are not modelled. *)
From Coq Require Import Reals List.
From Verif Require Import Py.
Import ListNotations.
Local Open Scope R_scope.

(** State of pandas' ewmcov of a series with itself (pandas/_libs/window/aggregations.pyx, ewmcov with adjust=True,
    ignore_na=False, bias=False, minp=1): weighted mean (None: nothing observed), weighted variance, sum of weights, sum of squared weights,
    old weight. *)
Record ewst := mkEw { ew_mean : option R; ew_cov : R; ew_w : R; ew_w2 : R; ew_old : R }.
Definition ew_init : ewst := mkEw None 0 1 1 1.
(** One position.  [f] is old_wt_factor.  pandas leaves the mean alone if the new value equals it: no difference over the reals. *)
Definition ew_step (f : R) (st : ewst) (x : option R) : ewst :=
  match ew_mean st, x with
  | Some m, Some v =>
      let o := ew_old st * f in
      let m' := (o * m + 1 * v) / (o + 1) in
      mkEw (Some m') ((o * (ew_cov st + (m - m') * (m - m')) + 1 * ((v - m') * (v - m'))) / (o + 1))
        (ew_w st * f + 1) (ew_w2 st * (f * f) + 1 * 1) (o + 1)
  | Some m, None => mkEw (Some m) (ew_cov st) (ew_w st * f) (ew_w2 st * (f * f)) (ew_old st * f)
  | None, Some v => mkEw (Some v) (ew_cov st) (ew_w st) (ew_w2 st) (ew_old st)
  | None, None => st
  end.
(** The output at a position: NaN unless the denominator of the bias correction is positive (with nothing observed the two sums are
    both 1). *)
Definition ew_var (st : ewst) : option R :=
  let numerator := ew_w st * ew_w st in
  let denominator := numerator - ew_w2 st in
  if Rlt_dec 0 denominator then Some (numerator / denominator * ew_cov st) else None.
Fixpoint ew_loop (f : R) (st : ewst) (xs : list (option R)) : list (option R) :=
  match xs with nil => nil | x :: xs => let st := ew_step f st x in ew_var st :: ew_loop f st xs end.
(** ewm(halflife=h): com = 1 / (1 - exp(log(0.5) / h)) - 1, alpha = 1 / (1 + com), old_wt_factor = 1 - alpha. *)
Definition old_wt_factor (h : R) : R :=
  let com := 1 / (1 - exp (ln (1 / 2) / h)) - 1 in 1 - 1 / (1 + com).
(** Series.ewm(halflife=h).std(): the root of the variances (a negative one would give 0, as does Coq's sqrt). *)
Definition ewm_std (h : R) (xs : list (option R)) : list (option R) :=
  map (option_map sqrt) (ew_loop (old_wt_factor h) ew_init xs).

Definition rho_col (j : nat) (rows : list (list (option R))) : list (option R) := map (fun r => nth j r None) rows.
(** DataFrame.shift(1) *)
Definition shift1 (rows : list (list (option R))) : list (list (option R)) :=
  match rows with nil => nil | r :: _ => map (fun _ => None) r :: removelast rows end.

(** trading_model.py:19-30, a frame with [k] columns.  [stdevs.iloc[0] = 0] raises IndexError if there is no row. *)
Definition construct_rho (k : nat) (returns : list (list (option R))) (n_devs : R) : res (list (list R)) :=
  let stds := map (fun j => ewm_std 125 (rho_col j returns)) (seq 0 k) in
  let frame := map (fun t => map (fun c => nth t c None) stds) (seq 0 (length returns)) in
  match shift1 frame with
  | nil => Raise IndexError
  | _ :: rest =>
      let stdevs := repeat (Some 0) k :: rest in
      Ok (map (map (fun x => n_devs * match x with Some v => v | None => 0 end)) stdevs)
  end.
