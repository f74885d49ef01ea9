(** * C138: the distant past is forgotten at a geometric rate, so a rolling window gives the same covariances.

    Words used: [later_rows], [std_moment], [memory_left] (SpecForget.v); [ewstd], [settings], [vol_at], [cov_at] (SpecEwma.v);
    [decay] h = 2^(-1/h) (Spec.v). *)
From Coq Require Import String Reals Lra List Bool ZArith Arith Lia.
From Verif Require Import Num Py Ewma Spec SpecEwma SpecForget ForgetMain ForgetEx ExEwma.
Import ListNotations.
Local Open Scope R_scope.

(** C138 (volatility): dropping the first d rows changes a squared volatility at the same date by at most M^2 2^(-m/h), m the
    number of rows kept up to that date. *)
Theorem C138_volatility : forall (f : frame time) (x : nat -> nat -> R) (h : R) (mp d : nat) (M : R),
  valid_returns f -> returns_are false f x -> 0 < h ->
  (forall j k, (j < length (fcols f))%nat -> (k < length (findex f))%nat -> Rabs (x j k) <= M) -> (d < length (findex f))%nat ->
  exists v v', volatility f (Some (Fin h)) mp None = Ok v /\ volatility (later_rows d f) (Some (Fin h)) mp None = Ok v' /\
    findex v = skipn (first_pos mp) (findex f) /\ findex v' = skipn (first_pos mp) (skipn d (findex f)) /\
    forall k j, (d + first_pos mp + k < length (findex f))%nat -> (j < length (fcols f))%nat ->
      exists s s', entry v (d + k) j = Fin s /\ entry v' k j = Fin s' /\ 0 <= s /\ 0 <= s' /\ Rabs (s ^ 2 - s' ^ 2) <= M ^ 2 * decay h ^ (first_pos mp + k + 1).
Proof. exact vol_forget. Qed.
Print Assumptions C138_volatility.

(** C138 (iterated_ewma): the items of the run on the later rows are those of the full run from d on, up to errors that decay
    geometrically with the number of rows kept. *)
Theorem C138_items : forall (P : params) (f : frame time) (x : nat -> nat -> R) (hv hc h1 h2 M w g : R) (d : nat),
  let p := first_pos (min_periods_vola P) in let q := first_pos (min_periods_cov P) in
  let n := length (fcols f) in let T := length (findex f) in let x' := fun j k => x j (d + k)%nat in
  settings P hv hc h1 h2 None -> use_mean P = false -> valid_returns f -> returns_are (nan_to_num P) f x -> (d + (p + q) < T)%nat ->
  0 < w -> 0 < g -> (forall j k, (j < n)%nat -> (k < T)%nat -> Rabs (x j k) <= M) ->
  (forall j k, (j < n)%nat -> (p <= k < T)%nat -> w <= ewstd hv (x j) k) ->
  (forall j k, (j < n)%nat -> (p <= k)%nat -> (d + k < T)%nat -> w <= ewstd hv (x' j) k) ->
  (forall j i, (j < n)%nat -> (q <= i)%nat -> (p + i < T)%nat -> g <= std_moment hv hc p x i j j) ->
  (forall j i, (j < n)%nat -> (q <= i)%nat -> (d + p + i < T)%nat -> g <= std_moment hv hc p x' i j j) ->
  exists outs outs', iterated_ewma P f = Ok outs /\ iterated_ewma P (later_rows d f) = Ok outs' /\
    map itime outs = skipn (p + q) (findex f) /\ map itime outs' = skipn d (map itime outs) /\
    forall m o o', nth_error outs (d + m) = Some o -> nth_error outs' m = Some o' -> forall a b, (a < n)%nat -> (b < n)%nat ->
      exists s s' c c', vol_at o a = Fin s /\ vol_at o' a = Fin s' /\ cov_at o a b = Fin c /\ cov_at o' a b = Fin c' /\
        Rabs (s ^ 2 - s' ^ 2) <= M ^ 2 * decay hv ^ (p + (q + m) + 1) /\ Rabs (c - c') <= memory_left hv hc M w g (q + m).
Proof. exact items_forget. Qed.
Print Assumptions C138_items.

(** C138 (rolling window): for every tolerance there is a window length, the same for all histories, after which the run on
    the later rows agrees with the full run to that tolerance. *)
Theorem C138_rolling_window : forall hv hc M w g eps : R, 0 < hv -> 0 < hc -> 0 < w -> 0 < g -> 0 < eps -> exists N : nat,
  forall (P : params) (f : frame time) (x : nat -> nat -> R) (h1 h2 : R) (d : nat),
  let p := first_pos (min_periods_vola P) in let q := first_pos (min_periods_cov P) in
  let n := length (fcols f) in let T := length (findex f) in let x' := fun j k => x j (d + k)%nat in
  settings P hv hc h1 h2 None -> use_mean P = false -> valid_returns f -> returns_are (nan_to_num P) f x -> (d + (p + q) < T)%nat ->
  (forall j k, (j < n)%nat -> (k < T)%nat -> Rabs (x j k) <= M) ->
  (forall j k, (j < n)%nat -> (p <= k < T)%nat -> w <= ewstd hv (x j) k) ->
  (forall j k, (j < n)%nat -> (p <= k)%nat -> (d + k < T)%nat -> w <= ewstd hv (x' j) k) ->
  (forall j i, (j < n)%nat -> (q <= i)%nat -> (p + i < T)%nat -> g <= std_moment hv hc p x i j j) ->
  (forall j i, (j < n)%nat -> (q <= i)%nat -> (d + p + i < T)%nat -> g <= std_moment hv hc p x' i j j) ->
  exists outs outs', iterated_ewma P f = Ok outs /\ iterated_ewma P (later_rows d f) = Ok outs' /\
    forall m o o', (N <= m)%nat -> nth_error outs (d + m) = Some o -> nth_error outs' m = Some o' -> itime o = itime o' /\
      forall a b, (a < n)%nat -> (b < n)%nat -> exists c c', cov_at o a b = Fin c /\ cov_at o' a b = Fin c' /\ Rabs (c - c') <= eps.
Proof. exact rolling_window. Qed.
Print Assumptions C138_rolling_window.
(** Five days of two assets of volatility 1 and 2, the first two days dropped. *)
Example C138_case : let P := ex_P false 2 1 None true in let p := first_pos (min_periods_vola P) in let q := first_pos (min_periods_cov P) in
  let x' := fun j k => fg_x j (2 + k)%nat in
  settings P 2 3 2 5 None /\ use_mean P = false /\ valid_returns fg_f /\ returns_are (nan_to_num P) fg_f fg_x /\ returns_are false fg_f fg_x /\
  (2 + (p + q) < length (findex fg_f))%nat /\
  (forall j k, (j < 2)%nat -> (k < 5)%nat -> Rabs (fg_x j k) <= 2) /\
  (forall j k, (j < 2)%nat -> (p <= k < 5)%nat -> 1 <= ewstd 2 (fg_x j) k) /\
  (forall j k, (j < 2)%nat -> (p <= k)%nat -> (2 + k < 5)%nat -> 1 <= ewstd 2 (x' j) k) /\
  (forall j i, (j < 2)%nat -> (q <= i)%nat -> (p + i < 5)%nat -> 1 <= std_moment 2 3 p fg_x i j j) /\
  (forall j i, (j < 2)%nat -> (q <= i)%nat -> (2 + p + i < 5)%nat -> 1 <= std_moment 2 3 p x' i j j).
Proof. exact fg_case. Qed.
