(** * Vocabulary for portfolio_backtests.py (C45, C54, C82-C87). *)
From Coq Require Import Reals ZArith String List.
Set Warnings "-notation-overridden,-ambiguous-paths".
From mathcomp Require Import all_ssreflect all_algebra.
From Verif Require Import RStruct MatR Num Py Spec Trader SpecTrader Backtests.
Set Implicit Arguments.
Unset Strict Implicit.
Unset Printing Implicit Defensive.
Import GRing.Theory.
Local Open Scope ring_scope.
Delimit Scope Z_scope with z.

(** A line of the results table: return, risk and drawdown in per cent, the Sharpe ratio as it is. *)
Definition pct_line (name : string) (m : metrics) : line := LRow name (m_mean m * 100) (m_risk m * 100) (m_sharpe m) (m_drawdown m * 100).

Section Spec.
  Context (n : nat).
  (** A frame with one row per date, dates strictly increasing, at least one asset. *)
  Definition good_frame (f : rframe n) : Prop := (0 < n)%N /\ size f.2 = size f.1.1 /\ increasing f.1.1.
  (** A backtest over [a, b] trades at date t and earns r: the next date of the frame is t', both lie in [a, b], and the row
      of t' is r, without NaN. *)
  Definition traded (f : rframe n) (a b t : Z) (r : 'cV[R]_n) : Prop := exists j t' q,
    List.nth_error f.1.1 j = Some t /\ List.nth_error f.1.1 j.+1 = Some t' /\ List.nth_error f.2 j.+1 = Some q /\
    (a <= t)%z /\ (t' <= b)%z /\ forall i, q i 0 = Some (r i 0).
  (** The trader works on these dates, each with its next return and the forecast issued at it. *)
  Definition causal_trader (f : rframe n) (Sg : seq (Z * 'M[R]_n)) (a b : Z) (T : trader n) : Prop :=
    increasing (t_times T) /\ size (t_returns T) = size (t_times T) /\ size (t_Sigmas T) = size (t_times T) /\
    (forall t r, List.In (t, r) (zip (t_times T) (t_returns T)) <-> traded f a b t r) /\
    (forall t S, List.In (t, S) (zip (t_times T) (t_Sigmas T)) -> dict_get Z.eqb Sg t = Some S).
  (** Every traded date has a positive definite forecast, and there is such a date. *)
  Definition covered (f : rframe n) (Sg : seq (Z * 'M[R]_n)) (a b : Z) : Prop :=
    (forall t r, traded f a b t r -> exists S, dict_get Z.eqb Sg t = Some S /\ spd S) /\ exists t r, traded f a b t r.
  (** Mean forecasts: a frame with the assets of the returns that has a row at every traded date. *)
  Definition means_cover (f : rframe n) (m : frame n) (a b : Z) : Prop :=
    m.1.2 = f.1.2 /\ forall t r, traded f a b t r -> dict_get Z.eqb (zip m.1.1 m.2) t <> None.
  (** The weights of a trader: at every date t with forecast S a row that is [ok t S]. *)
  Definition weights_are (Sg : seq (Z * 'M[R]_n)) (T : trader n) (ok : Z -> 'M[R]_n -> wrow n -> Prop) : Prop :=
    exists ws, t_ws T = Some ws /\ size ws = size (t_times T) /\
      forall j t, List.nth_error (t_times T) j = Some t -> exists S w, dict_get Z.eqb Sg t = Some S /\ List.nth_error ws j = Some w /\ ok t S w.
  (** The result of a backtest over all predictors: one trader per name, in order, for the predictor of that position. *)
  Definition results (B : pbt n) (d : seq (string * trader n)) (ok : nat -> Z -> 'M[R]_n -> wrow n -> Prop) : Prop :=
    List.map fst d = List.firstn (List.length (b_covs B)) (b_names B) /\
    forall i Sg, List.nth_error (b_covs B) i = Some Sg -> exists name T,
      List.nth_error (b_names B) i = Some name /\ dict_get String.eqb d name = Some T /\ causal_trader (b_returns B) Sg (b_start B) (b_end B) T /\ weights_are Sg T (ok i).
  (** One name for each predictor, all different. *)
  Definition good_names (B : pbt n) : Prop := (List.length (b_covs B) <= List.length (b_names B))%coq_nat /\ List.NoDup (b_names B).
  Definition all_covered (B : pbt n) : Prop := forall i Sg, List.nth_error (b_covs B) i = Some Sg -> covered (b_returns B) Sg (b_start B) (b_end B).
  (** The mean forecasts that go with predictor i; the penalty vector of date t (0 if none are given). *)
  Definition mean_of (B : pbt n) (i : nat) : option (frame n) := if b_means B is Some ms then List.nth_error ms i else None.
  Definition rho_of (rhos : option (seq (Z * 'cV[R]_n))) (t : Z) : option 'cV[R]_n := if rhos is Some d then dict_get Z.eqb d t else Some 0.
  (** Weights u without cash. *)
  Definition plain (P : 'cV[R]_n -> Prop) (w : wrow n) : Prop := exists u, w = Some (u, [::]) /\ P u.
End Spec.
