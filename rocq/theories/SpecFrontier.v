(** * Vocabulary: the efficient frontier. *)
From Coq Require Import Reals ZArith String List.
Set Warnings "-notation-overridden,-ambiguous-paths".
From mathcomp Require Import all_ssreflect all_algebra.
From Verif Require Import RStruct MatR Num Py Trader SpecTrader.
Set Implicit Arguments.
Unset Strict Implicit.
Unset Printing Implicit Defensive.
Import GRing.Theory.
Local Open Scope ring_scope.
Delimit Scope R_scope with re.

(** u = (weights, cash) maximises expected return less penalty under annual risk limit b and limits l (see C70). *)
Definition mv_best n (r rho : 'cV[R]_n) (l : limits) (S : 'M[R]_n) (b : R) (u : 'cV[R]_n * R) : Prop :=
  minimiser (fun u => (- mv_value r rho u)%re) (mv_portfolio l S b) u.
(** Limits l' allow what l allows: a missing limit allows everything. *)
Definition limit_le (up : bool) (a b : option R) : Prop :=
  match b with None => True | Some y => match a with None => False | Some x => if up then (x <= y)%re else (y <= x)%re end end.
Definition looser (l l' : limits) : Prop :=
  limit_le true (short_lim l) (short_lim l') /\ limit_le true (upper_bound l) (upper_bound l') /\ limit_le false (lower_bound l) (lower_bound l').
(** A mean_variance backtest of T with target risk sd that returns: limits l, adjust_factor af, no penalty, satisfiable
    constraint list. *)
Definition mv_call n (T : trader n) (l : limits) (af : R) (solve : solver_t n) W (a : bt_args n) sd W1 T1 : Prop :=
  solve_ok solve /\ well_formed W /\ consistent W (a_cons a) /\
  a_type a = MeanVariance /\ a_sigma_des a = Some sd /\ a_rhos a = None /\ a_limits a = l /\ a_adjust a = af /\ backtest solve W T a = (W1, T1, None).
