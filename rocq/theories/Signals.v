(** * Model of the signal helpers defined in cells of the notebooks, in exact arithmetic.

    A row of a DataFrame of returns or forecasts is a list of [option R] (None is NaN).  Index and columns of the results are
    those of the argument and are left out.  Cited as notebook:line of the .ipynb file. *)
From Coq Require Import Reals ZArith List.
Set Warnings "-notation-overridden,-ambiguous-paths".
From mathcomp Require Import all_ssreflect all_algebra.
From Verif Require Import RStruct MatR Num Py RetComb.
Set Implicit Arguments.
Unset Strict Implicit.
Unset Printing Implicit Defensive.
Import GRing.Theory.
Local Open Scope ring_scope.
Delimit Scope R_scope with re.

Definition Rleb (x y : R) : bool := if Rle_dec x y then true else false.

(** Series.quantile(q) with linear interpolation: NaN are dropped; q outside [0, 1]: ValueError; no value: NaN. *)
Definition quantile (row : seq (option R)) (q : R) : res (option R) :=
  if Rltb q 0 || Rltb 1 q then Raise ValueError else
  let s := sort Rleb (pmap id row) in
  if size s == 0%N then Ok None else
  let pos := (q * INR (size s).-1)%re in
  let k := Z.to_nat (Int_part pos) in
  let lo := nth 0%re s k in
  let hi := nth 0%re s (minn k.+1 (size s).-1) in
  Ok (Some (lo + (pos - INR k) * (hi - lo))%re).

(** np.clip(row, a_min, a_max) = row.clip(a_min, a_max): pandas puts the two scalar bounds in order; NaN bounds do not bound. *)
Definition clip_entry (a b : option R) (x : option R) : option R :=
  match a, b, x with
  | Some a, Some b, Some v => Some (Rmin (Rmax v (Rmin a b)) (Rmax a b))
  | _, _, _ => x
  end.

(** industry_portfolios.ipynb:1086-1097 (lower and upper are arguments there; realized_covariance.ipynb:782,
    nonzero_means.ipynb:229, stock_portfolios.ipynb:883 and factor_portfolios.ipynb:1085 fix 0.4 and 0.6). *)
Definition tune_returns (lower upper : R) (rows : seq (seq (option R))) : res (seq (seq (option R))) :=
  mapM (fun row =>
    do a <- quantile row lower;
    do b <- quantile row upper;
    Ok [seq clip_entry a b x | x <- row]) rows.

(** nonzero_means.ipynb:243-254; comparisons with NaN are False. *)
Definition gt_opt (x y : option R) : bool := match x, y with Some a, Some b => Rltb b a | _, _ => false end.
Definition tune_returns2 (rows : seq (seq (option R))) : res (seq (seq R)) :=
  mapM (fun row =>
    do hi <- quantile row (9 / 10)%re;
    do lo <- quantile row (1 / 10)%re;
    Ok [seq (if gt_opt x hi then 1%re else if gt_opt lo x then (- 1)%re else 0%re) | x <- row]) rows.

(** industry_portfolios.ipynb:1127-1151, get_sign_prediction.  [argsort] is np.argsort (NaN last, ties in any order).  The labels
    of the rows are distinct (.loc[i] writes one row). *)
Section Sign.
  Context (argsort : seq (option R) -> seq nat).
  (** r[idx] = f(r[idx]) for an index array without repetitions *)
  Definition update_at (idx : seq nat) (f : option R -> option R) (r : seq (option R)) : seq (option R) :=
    [seq (if i \in idx then f (nth None r i) else nth None r i) | i <- iota 0 (size r)].
  (** lines 1138-1148: np.ones(10) * mask needs ten indices: ValueError for a row with fewer entries. *)
  Definition sign_row (r : seq (option R)) : res (seq (option R)) :=
    if (size r < 10)%N then Raise ValueError else
    let ten_largest := drop (size r - 10) (argsort r) in
    let r1 := update_at ten_largest (fun x => Some (if gt_opt x (Some 0%re) then 1%re else 0%re)) r in
    let ten_smallest := take 10 (argsort r1) in
    let r2 := update_at ten_smallest (fun x => Some (if gt_opt (Some 0%re) x then (- 1)%re else 0%re)) r1 in
    Ok [seq (if x is Some v then (if Reqb (Rabs v) 1 then x else Some 0%re) else Some 0%re) | x <- r2].
  Definition get_sign_prediction (rows : seq (seq (option R))) : res (seq (seq (option R))) := mapM sign_row rows.
End Sign.

(** industry_portfolios.ipynb:1107-1108, get_moving_autocorrelations, one column; x, y aligned by the index.  A zero denominator
    comes with a zero numerator: NaN. *)
Definition mul_opt (x y : option R) : option R := match x, y with Some a, Some b => Some (a * b)%re | _, _ => None end.
Definition div_opt (x y : option R) : option R :=
  match x, y with Some a, Some b => if Reqb b 0 then None else Some (a / b)%re | _, _ => None end.
Definition moving_autocorrelation (halflife : R) (x y : seq (option R)) : res (seq (option R)) :=
  if Rltb 0 halflife then
    let f := halflife_factor halflife in
    let xy := ewm_mean f [seq mul_opt p.1 p.2 | p <- zip x y] in
    let xx := ewm_mean f [seq mul_opt v v | v <- x] in
    let yy := ewm_mean f [seq mul_opt v v | v <- y] in
    Ok [seq div_opt p.1 (mul_opt (omap sqrt p.2.1) (omap sqrt p.2.2)) | p <- zip xy (zip xx yy)]
  else Raise ValueError.
