(** * Running on the recent part of a history. *)
From Coq Require Import String Reals List.
From Verif Require Import Num Py Ewma Spec SpecEwma.
Local Open Scope R_scope.

(** The frame without its first d rows. *)
Definition later_rows {N : Num} (d : nat) (f : frame (N := N) time) : frame (N := N) time :=
  mkFrame (skipn d (findex f)) (fcols f) (skipn d (fvals f)).

(** In exact arithmetic, without mean and clipping, p the row of the first volatility: the standardised return i rows after p,
    and the second moments of the standardised returns. *)
Definition std_return (hv : R) (p : nat) (x : nat -> nat -> R) (j i : nat) : R := x j (p + i)%nat / ewstd hv (x j) (p + i).
Definition std_moment (hv hc : R) (p : nat) (x : nat -> nat -> R) (i a b : nat) : R :=
  ewavg (decay hc) (fun s => std_return hv p x a s * std_return hv p x b s) i.

(** How much of the older history is still felt after i + 1 standardised returns: returns of size at most M, volatilities at
    least w, second moments at least g. *)
Definition memory_left (hv hc M w g : R) (i : nat) : R :=
  7 * M ^ 2 * (M / w) ^ 6 / g ^ 2 * INR (S i) * Rmax (decay hv) (decay hc) ^ i.
