(** * C135: iterated_ewma, end to end, in IEEE-754 binary64 arithmetic.

    The exact volatilities and covariances ([ex_vol], [ex_cov]) and the bound are in SpecRound2.v. *)
From Coq Require Import String ZArith Reals Lra List.
From Flocq Require Import Core BinarySingleNaN.
From Verif Require Import Num Py Ewma Spec SpecEwma Ieee SpecRound SpecRound2 RoundEx RoundPipe2 RoundPipe3 RoundPipeEx RoundPsd.
Import ListNotations.
Local Open Scope R_scope.

(** C135: without mean or clipping, a run whose exact volatilities stay above w and whose exact second moments of the
    standardised returns stay above g, with B = 2^-42 (M/w)^4 (1/(1-decay_vola) + 1/(1-decay_cov)) / g at most 1/2, succeeds,
    yields at every row from first_pos + first_pos on, all its volatilities and covariances are numbers, the volatilities are
    within a relative error B/16 and the covariance entries within B M^2 of the exact ones, however long the history. *)
Theorem C135_pipeline_rounding : forall (L : libm) (P : params (N := IEEE L)) (f : frame time) (hv hc : b64) (M w g : R),
  let p := first_pos (min_periods_vola P) in let q := first_pos (min_periods_cov P) in
  let n := length (fcols f) in let T := length (findex f) in
  let B := rounding_bound (fval hv) (fval hc) M w g in
  accurate L -> vola_halflife P = Some hv -> cov_halflife P = Some hc -> isnum hv -> isnum hc ->
  / 2 <= fval hv <= bpow radix2 20 -> / 2 <= fval hc <= bpow radix2 20 -> use_mean P = false -> p_clip_at P = None ->
  bpow radix2 (-440) <= M <= bpow radix2 490 -> 0 < w -> 0 < g -> valid_returns f -> numbers f M -> (p + q < T)%nat ->
  (forall j k, (j < n)%nat -> (p <= k < T)%nat -> w <= ex_vol f (fval hv) j k) ->
  (forall j i, (j < n)%nat -> (q <= i)%nat -> (p + i < T)%nat -> g <= ex_mom f (fval hv) (fval hc) p i j j) ->
  B <= / 2 ->
  exists outs, iterated_ewma (N := IEEE L) P f = Ok outs /\ map itime outs = skipn (p + q) (findex f) /\
    forall m o, nth_error outs m = Some o ->
      findex (icov o) = fcols f /\ fcols (icov o) = fcols f /\
      forall a b, (a < n)%nat -> (b < n)%nat ->
        isnum (nth a (ivol o) (B754_nan : b64)) /\
        Rabs (fval (nth a (ivol o) (B754_nan : b64)) - ex_vol f (fval hv) a (p + (q + m))) <= B / 16 * ex_vol f (fval hv) a (p + (q + m)) /\
        isnum (fcell (icov o) a b) /\
        Rabs (fval (fcell (icov o) a b) - ex_cov f (fval hv) (fval hc) p (q + m) a b) <= B * M ^ 2.
Proof. exact fiterated. Qed.
Print Assumptions C135_pipeline_rounding.
(** The binary64 run against the run of the same program on the same inputs in exact arithmetic. *)
Theorem C135_same_program : forall (L : libm) (P : params (N := IEEE L)) (f : frame time) (hv hc : b64) (M w g : R),
  let p := first_pos (min_periods_vola P) in let q := first_pos (min_periods_cov P) in
  let n := length (fcols f) in let T := length (findex f) in
  let B := rounding_bound (fval hv) (fval hc) M w g in
  accurate L -> vola_halflife P = Some hv -> cov_halflife P = Some hc -> isnum hv -> isnum hc ->
  / 2 <= fval hv <= bpow radix2 20 -> / 2 <= fval hc <= bpow radix2 20 -> use_mean P = false -> p_clip_at P = None ->
  bpow radix2 (-440) <= M <= bpow radix2 490 -> 0 < w -> 0 < g -> valid_returns f -> numbers f M -> (p + q < T)%nat ->
  (forall j k, (j < n)%nat -> (p <= k < T)%nat -> w <= ex_vol f (fval hv) j k) ->
  (forall j i, (j < n)%nat -> (q <= i)%nat -> (p + i < T)%nat -> g <= ex_mom f (fval hv) (fval hc) p i j j) ->
  B <= / 2 ->
  exists outs exact, iterated_ewma (N := IEEE L) P f = Ok outs /\ iterated_ewma (N := XR) (exact_params P) (exact_frame f) = Ok exact /\
    map itime outs = skipn (p + q) (findex f) /\ map itime exact = skipn (p + q) (findex f) /\
    forall m o e, nth_error outs m = Some o -> nth_error exact m = Some e -> forall a b, (a < n)%nat -> (b < n)%nat ->
      exists s c : R, nth a (ivol e) NaN = Fin s /\ nth b (nth a (fvals (icov e)) []) NaN = Fin c /\ w <= s /\
        isnum (nth a (ivol o) (B754_nan : b64)) /\ Rabs (fval (nth a (ivol o) (B754_nan : b64)) - s) <= B / 16 * s /\
        isnum (fcell (icov o) a b) /\ Rabs (fval (fcell (icov o) a b) - c) <= B * M ^ 2.
Proof. exact frun_exact. Qed.
Print Assumptions C135_same_program.
(** Two assets of volatility 1 and 2, half-lives 2, first volatility at the second row. *)
Example C135_case : accurate rounded_libm /\ fval f2 = 2 /\ isnum f2 /\ vola_halflife rp_P = Some f2 /\ cov_halflife rp_P = Some f2 /\
  first_pos (min_periods_vola rp_P) = 1%nat /\ first_pos (min_periods_cov rp_P) = 0%nat /\ use_mean rp_P = false /\ p_clip_at rp_P = None /\
  valid_returns (N := IEEE rounded_libm) rp_f /\ length (findex rp_f) = 3%nat /\ numbers rp_f 2 /\
  (forall j k, (j < 2)%nat -> (1 <= k < 3)%nat -> 1 <= ex_vol rp_f 2 j k) /\
  (forall j i, (j < 2)%nat -> (0 <= i)%nat -> (1 + i < 3)%nat -> 1 <= ex_mom rp_f 2 2 1 i j j) /\ rounding_bound 2 2 2 1 1 <= / 2.
Proof. exact rp_hyps. Qed.

(** C136: in such a run the yielded covariances are symmetric up to 2 B M^2, their quadratic form is never below
    - B M^2 |x|_1^2, and it is at least (l - n B M^2) |x|^2 when that of the exact covariance is at least l |x|^2. *)
Theorem C136_nearly_definite : forall (L : libm) (P : params (N := IEEE L)) (f : frame time) (hv hc : b64) (M w g : R),
  let p := first_pos (min_periods_vola P) in let q := first_pos (min_periods_cov P) in
  let n := length (fcols f) in let T := length (findex f) in
  let B := rounding_bound (fval hv) (fval hc) M w g in
  accurate L -> vola_halflife P = Some hv -> cov_halflife P = Some hc -> isnum hv -> isnum hc ->
  / 2 <= fval hv <= bpow radix2 20 -> / 2 <= fval hc <= bpow radix2 20 -> use_mean P = false -> p_clip_at P = None ->
  bpow radix2 (-440) <= M <= bpow radix2 490 -> 0 < w -> 0 < g -> valid_returns f -> numbers f M -> (p + q < T)%nat ->
  (forall j k, (j < n)%nat -> (p <= k < T)%nat -> w <= ex_vol f (fval hv) j k) ->
  (forall j i, (j < n)%nat -> (q <= i)%nat -> (p + i < T)%nat -> g <= ex_mom f (fval hv) (fval hc) p i j j) ->
  B <= / 2 ->
  exists outs, iterated_ewma (N := IEEE L) P f = Ok outs /\ length outs = (T - (p + q))%nat /\
    forall m o, nth_error outs m = Some o ->
      (forall a b, (a < n)%nat -> (b < n)%nat -> isnum (fcell (icov o) a b) /\
        Rabs (fval (fcell (icov o) a b) - fval (fcell (icov o) b a)) <= 2 * (B * M ^ 2)) /\
      (forall x : nat -> R, - (B * M ^ 2 * rsum n (fun a => Rabs (x a)) ^ 2) <= rsum n (fun a => rsum n (fun b => x a * x b * fval (fcell (icov o) a b)))) /\
      (forall l : R, (forall x : nat -> R, l * rsum n (fun a => x a ^ 2) <= rsum n (fun a => rsum n (fun b => x a * x b * ex_cov f (fval hv) (fval hc) p (q + m) a b))) ->
        forall x : nat -> R, (l - INR n * (B * M ^ 2)) * rsum n (fun a => x a ^ 2) <= rsum n (fun a => rsum n (fun b => x a * x b * fval (fcell (icov o) a b)))).
Proof. exact fpsd. Qed.
Print Assumptions C136_nearly_definite.
Example C136_case : accurate rounded_libm /\ fval f2 = 2 /\ isnum f2 /\ vola_halflife rp_P = Some f2 /\ cov_halflife rp_P = Some f2 /\
  first_pos (min_periods_vola rp_P) = 1%nat /\ first_pos (min_periods_cov rp_P) = 0%nat /\ use_mean rp_P = false /\ p_clip_at rp_P = None /\
  valid_returns (N := IEEE rounded_libm) rp_f /\ length (findex rp_f) = 3%nat /\ numbers rp_f 2 /\
  (forall j k, (j < 2)%nat -> (1 <= k < 3)%nat -> 1 <= ex_vol rp_f 2 j k) /\
  (forall j i, (j < 2)%nat -> (0 <= i)%nat -> (1 + i < 3)%nat -> 1 <= ex_mom rp_f 2 2 1 i j j) /\ rounding_bound 2 2 2 1 1 <= / 2.
Proof. exact rp_hyps. Qed.
