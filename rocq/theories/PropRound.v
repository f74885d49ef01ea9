(** * C131-C134: the moving averages and the scaling of the covariances in IEEE-754 binary64 arithmetic.

    The same model functions as in C02 and C12, run on the numbers numpy really computes with ([IEEE L], Ieee.v): + - * / and
    sqrt correctly rounded, exp / log / power from any library [L] with errors below 2^-53 / 2^-53 / 2^-52.  [bpow radix2 e]
    is 2^e. *)
From Coq Require Import String ZArith Reals Lra List.
From Flocq Require Import Core BinarySingleNaN.
From Verif Require Import Num Py Ewma Spec SpecEwma Ieee SpecRound RoundFrame RoundVol RoundEx RoundCov RoundDiag RoundDiagEx.
Import ListNotations.
Local Open Scope R_scope.

(** C131: however long the history, no entry of the moving mean or of the demeaned returns is NaN or infinite, and each is
    within 2^-46 M / (1 - decay) of the exact value. *)
Theorem C131_mean_rounding : forall (L : libm) (f : frame (N := IEEE L) time) (h : b64) (mp : nat) (M : R),
  accurate L -> isnum h -> / 2 <= fval h <= bpow radix2 36 -> bpow radix2 (-900) <= M <= bpow radix2 1000 ->
  valid_returns f -> fvals f <> [] -> numbers f M ->
  exists d m, center (N := IEEE L) f (Some h) mp true = Ok (d, m) /\
    fcols d = fcols f /\ fcols m = fcols f /\
    findex d = skipn (first_pos mp) (findex f) /\ findex m = skipn (first_pos mp) (findex f) /\
    forall k j, (first_pos mp <= k < length (findex f))%nat -> (j < length (fcols f))%nat ->
      let mu := ewavg (decay (fval h)) (fun s => fval (fcell f s j)) k in
      isnum (fcell m (k - first_pos mp) j) /\ isnum (fcell d (k - first_pos mp) j) /\
      Rabs (fval (fcell m (k - first_pos mp) j) - mu) <= bpow radix2 (-46) * M / (1 - decay (fval h)) /\
      Rabs (fval (fcell d (k - first_pos mp) j) - (fval (fcell f k j) - mu)) <= bpow radix2 (-46) * M / (1 - decay (fval h)).
Proof. exact fcenter. Qed.
Print Assumptions C131_mean_rounding.
Example C131_case : accurate rounded_libm /\ isnum f2 /\ / 2 <= fval f2 <= bpow radix2 36 /\ bpow radix2 (-900) <= 2 <= bpow radix2 1000 /\
  valid_returns (N := IEEE rounded_libm) rx_f /\ fvals rx_f <> [] /\ numbers rx_f 2.
Proof. exact rx_hyps36. Qed.

(** C132: no volatility is NaN, infinite or negative, and its square is within 2^-46 M^2 / (1 - decay) of the exact EWMA of
    the squared returns; the volatility itself is within 2^-23 M / sqrt (1 - decay). *)
Theorem C132_volatility_rounding : forall (L : libm) (f : frame (N := IEEE L) time) (h : b64) (mp : nat) (M : R),
  accurate L -> isnum h -> / 2 <= fval h <= bpow radix2 20 -> bpow radix2 (-440) <= M <= bpow radix2 490 ->
  valid_returns f -> fvals f <> [] -> numbers f M ->
  exists v, volatility (N := IEEE L) f (Some h) mp None = Ok v /\ fcols v = fcols f /\
    findex v = skipn (first_pos mp) (findex f) /\
    forall k j, (first_pos mp <= k < length (findex f))%nat -> (j < length (fcols f))%nat ->
      let W := ewavg (decay (fval h)) (fun s => fval (fcell f s j) ^ 2) k in
      let s := fcell v (k - first_pos mp) j in
      isnum s /\ 0 <= fval s /\
      Rabs (fval s ^ 2 - W) <= bpow radix2 (-46) * M ^ 2 / (1 - decay (fval h)) /\
      Rabs (fval s - sqrt W) <= bpow radix2 (-23) * M / sqrt (1 - decay (fval h)).
Proof. exact fvolatility2. Qed.
Print Assumptions C132_volatility_rounding.
Example C132_case : accurate rounded_libm /\ isnum f2 /\ / 2 <= fval f2 <= bpow radix2 20 /\ bpow radix2 (-440) <= 2 <= bpow radix2 490 /\
  valid_returns (N := IEEE rounded_libm) rx_f /\ fvals rx_f <> [] /\ numbers rx_f 2.
Proof. exact rx_hyps. Qed.

(** C133: the EWMA of outer products.  Every matrix is bitwise symmetric, has numbers as entries and a nonnegative diagonal, is
    within 2^-46 M^2 / (1 - decay) of the exact EWMA of the products, entry by entry, and its quadratic form is never below
    minus that bound times the squared l1 norm of the argument. *)
Theorem C133_covariance_rounding : forall (L : libm) (f : frame (N := IEEE L) time) (h : b64) (mp : nat) (M : R),
  accurate L -> isnum h -> / 2 <= fval h <= bpow radix2 20 -> bpow radix2 (-440) <= M <= bpow radix2 490 ->
  valid_returns f -> fvals f <> [] -> numbers f M ->
  exists l, ewma_cov (N := IEEE L) f (Some h) mp = Ok l /\ map fst l = skipn (first_pos mp) (findex f) /\
    forall k t S, nth_error l k = Some (t, S) ->
      findex S = fcols f /\ fcols S = fcols f /\
      (forall i j, (i < length (fcols f))%nat -> (j < length (fcols f))%nat ->
        isnum (fcell S i j) /\ fcell S i j = fcell S j i /\ 0 <= fval (fcell S i i) /\
        Rabs (fval (fcell S i j) - ewavg (decay (fval h)) (fun s => fval (fcell f s i) * fval (fcell f s j)) (first_pos mp + k))
          <= bpow radix2 (-46) * M ^ 2 / (1 - decay (fval h))) /\
      (forall w : nat -> R, let n := length (fcols f) in
        - (bpow radix2 (-46) * M ^ 2 / (1 - decay (fval h)) * rsum n (fun i => Rabs (w i)) ^ 2)
          <= rsum n (fun i => rsum n (fun j => w i * w j * fval (fcell S i j)))).
Proof. exact fewma_cov. Qed.
Print Assumptions C133_covariance_rounding.
Example C133_case : accurate rounded_libm /\ isnum f2 /\ / 2 <= fval f2 <= bpow radix2 20 /\ bpow radix2 (-440) <= 2 <= bpow radix2 490 /\
  valid_returns (N := IEEE rounded_libm) rx_f /\ fvals rx_f <> [] /\ numbers rx_f 2.
Proof. exact rx_hyps. Qed.

(** C134: in every binary64 run of iterated_ewma (any settings, any data, any mathematical library), each diagonal entry of each
    yielded covariance is NaN or the square of the yielded volatility to within 16 units in the last place. *)
Theorem C134_diagonal_rounding : forall (L : libm) (P : params (N := IEEE L)) (f : frame time) outs o j,
  valid_returns f -> iterated_ewma (N := IEEE L) P f = Ok outs -> In o outs -> (j < length (fcols f))%nat ->
  let v := nth j (ivol o) (B754_nan : b64) in
  isnum v -> bpow radix2 (-500) <= Rabs (fval v) <= bpow radix2 500 ->
  fcell (icov o) j j = B754_nan \/
  (isnum (fcell (icov o) j j) /\ Rabs (fval (fcell (icov o) j j) - fval v ^ 2) <= bpow radix2 (-49) * fval v ^ 2).
Proof. exact fdiagonal. Qed.
Print Assumptions C134_diagonal_rounding.
(** A run with two assets of volatility 1 and 2 whose covariances are numbers. *)
Example C134_case : valid_returns (N := IEEE toy) td_f /\
  exists outs o, iterated_ewma (N := IEEE toy) td_P td_f = Ok outs /\ In o outs /\
  fval (nth 0 (ivol o) (B754_nan : b64)) = 1 /\ fval (nth 1 (ivol o) (B754_nan : b64)) = 2 /\
  isnum (nth 0 (ivol o) (B754_nan : b64)) /\ isnum (nth 1 (ivol o) (B754_nan : b64)) /\
  isnum (fcell (L := toy) (icov o) 0 0) /\ isnum (fcell (L := toy) (icov o) 1 1).
Proof. exact (conj td_valid td_run). Qed.
