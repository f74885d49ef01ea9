(** * A condition on returns (mean = True). *)
From Coq Require Import Reals.
From Verif Require Import Spec SpecEwma.
Local Open Scope R_scope.

(** Between the end of the volatility warm-up and the first forecast every asset has a return above and a return below its
    moving average of half-life h (the average up to and including that day). *)
Definition crosses (h : R) (x : nat -> nat -> R) (n mpv mpc : nat) : Prop :=
  forall j, (j < n)%nat -> exists s s',
    (first_pos mpv <= s <= first_pos mpv + first_pos mpc)%nat /\ (first_pos mpv <= s' <= first_pos mpv + first_pos mpc)%nat /\
    ewavg (decay h) (x j) s < x j s /\ x j s' < ewavg (decay h) (x j) s'.
