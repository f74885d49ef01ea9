(** * The covariance iterated_ewma would report in exact arithmetic (no mean, no clipping), and how far binary64 may be. *)
From Coq Require Import ZArith Reals List.
From Flocq Require Import Core BinarySingleNaN.
From Verif Require Import Num Py Ewma Spec SpecEwma Ieee SpecRound.
Local Open Scope R_scope.

Section Exact.
  Context {L : libm} (f : frame (N := IEEE L) time) (hv hc : R) (p : nat).
  (** Volatility of asset j at row k. *)
  Definition ex_vol (j k : nat) : R := sqrt (ewavg (decay hv) (fun s => fval (fcell f s j) ^ 2) k).
  (** Standardised return of asset j, i rows after the first volatility (row p). *)
  Definition ex_adj (j i : nat) : R := fval (fcell f (p + i) j) / ex_vol j (p + i).
  (** Second moments of the standardised returns, their correlation, the covariance. *)
  Definition ex_mom (i a b : nat) : R := ewavg (decay hc) (fun s => ex_adj a s * ex_adj b s) i.
  Definition ex_corr (i a b : nat) : R := ex_mom i a b / (sqrt (ex_mom i a a) * sqrt (ex_mom i b b)).
  Definition ex_cov (i a b : nat) : R := ex_vol a (p + i) * ex_vol b (p + i) * ex_corr i a b.
End Exact.
(** Returns of size at most M, volatilities of size at least w, second moments at least g. *)
Definition rounding_bound (hv hc M w g : R) : R :=
  bpow radix2 (-42) * (M / w) ^ 4 * (/ (1 - decay hv) + / (1 - decay hc)) / g.

(** The same inputs in exact arithmetic: settings and returns as the real numbers the binary64 stand for. *)
Definition exact_opt (o : option b64) : option xr := option_map (fun x => Fin (fval x)) o.
Definition exact_params {L : libm} (P : params (N := IEEE L)) : params (N := XR) :=
  mkParams (N := XR) (exact_opt (vola_halflife P)) (exact_opt (cov_halflife P)) (min_periods_vola P) (min_periods_cov P) (use_mean P)
    (exact_opt (mu_halflife1 P)) (exact_opt (mu_halflife2 P)) (exact_opt (p_clip_at P)) (nan_to_num P).
Definition exact_frame {L : libm} (f : frame (N := IEEE L) time) : frame (N := XR) time :=
  mkFrame (N := XR) (findex f) (fcols f) (map (map (fun x : b64 => Fin (fval x))) (fvals f)).
