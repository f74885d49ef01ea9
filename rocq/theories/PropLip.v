(** * C140: a small change of the returns changes volatilities and covariances at most in proportion (exact arithmetic).

    Words used: [std_moment] (SpecForget.v); [ewstd], [settings], [vol_at], [cov_at] (SpecEwma.v). *)
From Coq Require Import String Reals Lra List Bool ZArith Arith Lia.
From Verif Require Import Num Py Ewma Spec SpecEwma SpecForget ForgetEx ExEwma LipMain.
Import ListNotations.
Local Open Scope R_scope.

(** C140 (volatility): if no return moves by more than e, no volatility moves by more than e. *)
Theorem C140_volatility : forall (f f' : frame time) (x y : nat -> nat -> R) (h : R) (mp : nat) (e : R),
  valid_returns f -> valid_returns f' -> findex f' = findex f -> fcols f' = fcols f ->
  returns_are false f x -> returns_are false f' y -> 0 < h -> (0 < length (findex f))%nat ->
  (forall j k, (j < length (fcols f))%nat -> (k < length (findex f))%nat -> Rabs (x j k - y j k) <= e) ->
  exists v v', volatility f (Some (Fin h)) mp None = Ok v /\ volatility f' (Some (Fin h)) mp None = Ok v' /\
    findex v = skipn (first_pos mp) (findex f) /\ findex v' = findex v /\
    forall k j, (first_pos mp + k < length (findex f))%nat -> (j < length (fcols f))%nat ->
      exists s s', entry v k j = Fin s /\ entry v' k j = Fin s' /\ Rabs (s - s') <= e.
Proof. exact vol_lipschitz. Qed.
Print Assumptions C140_volatility.

(** C140 (iterated_ewma): both runs return items of the same dates; each volatility moves by at most e and each covariance by
    at most a constant, depending only on the bounds M (on the returns), w (on the volatilities) and g (on the moments that
    normalise the correlations), times e. *)
Theorem C140_items : forall (P : params) (f f' : frame time) (x y : nat -> nat -> R) (hv hc h1 h2 M w g e : R),
  let p := first_pos (min_periods_vola P) in let q := first_pos (min_periods_cov P) in
  let n := length (fcols f) in let T := length (findex f) in
  settings P hv hc h1 h2 None -> use_mean P = false -> valid_returns f -> valid_returns f' -> findex f' = findex f -> fcols f' = fcols f ->
  returns_are (nan_to_num P) f x -> returns_are (nan_to_num P) f' y -> (p + q < T)%nat -> 0 < w -> 0 < g ->
  (forall j k, (j < n)%nat -> (k < T)%nat -> Rabs (x j k) <= M /\ Rabs (y j k) <= M /\ Rabs (x j k - y j k) <= e) ->
  (forall j k, (j < n)%nat -> (p <= k < T)%nat -> w <= ewstd hv (x j) k /\ w <= ewstd hv (y j) k) ->
  (forall j i, (j < n)%nat -> (q <= i)%nat -> (p + i < T)%nat -> g <= std_moment hv hc p x i j j /\ g <= std_moment hv hc p y i j j) ->
  exists outs outs', iterated_ewma P f = Ok outs /\ iterated_ewma P f' = Ok outs' /\
    map itime outs = skipn (p + q) (findex f) /\ map itime outs' = map itime outs /\
    forall m o o', nth_error outs m = Some o -> nth_error outs' m = Some o' -> forall a b, (a < n)%nat -> (b < n)%nat ->
      exists s s' c c', vol_at o a = Fin s /\ vol_at o' a = Fin s' /\ cov_at o a b = Fin c /\ cov_at o' a b = Fin c' /\
        Rabs (s - s') <= e /\ Rabs (c - c') <= 10 * M * (M / w) ^ 5 / g ^ 2 * e.
Proof. exact items_lipschitz. Qed.
Print Assumptions C140_items.
(** Five days of two assets of volatilities 1 and 2, and the same with the first asset half as large again. *)
Example C140_case : let P := ex_P false 2 1 None true in let p := first_pos (min_periods_vola P) in let q := first_pos (min_periods_cov P) in
  settings P 2 3 2 5 None /\ use_mean P = false /\ valid_returns fg_f /\ valid_returns lp_f /\ findex lp_f = findex fg_f /\ fcols lp_f = fcols fg_f /\
  returns_are (nan_to_num P) fg_f fg_x /\ returns_are (nan_to_num P) lp_f lp_y /\ returns_are false fg_f fg_x /\ returns_are false lp_f lp_y /\
  (p + q < length (findex fg_f))%nat /\
  (forall j k, (j < 2)%nat -> (k < 5)%nat -> Rabs (fg_x j k) <= 2 /\ Rabs (lp_y j k) <= 2 /\ Rabs (fg_x j k - lp_y j k) <= / 2) /\
  (forall j k, (j < 2)%nat -> (p <= k < 5)%nat -> 1 <= ewstd 2 (fg_x j) k /\ 1 <= ewstd 2 (lp_y j) k) /\
  (forall j i, (j < 2)%nat -> (q <= i)%nat -> (p + i < 5)%nat -> 1 <= std_moment 2 3 p fg_x i j j /\ 1 <= std_moment 2 3 p lp_y i j j).
Proof. exact lp_case. Qed.
