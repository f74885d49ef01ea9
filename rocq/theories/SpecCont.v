(** * Vocabulary: histories that standardise without a division by zero. *)
From Coq Require Import Reals Arith.
From Verif Require Import Num Py Ewma Spec SpecEwma.
Local Open Scope R_scope.

(** Every asset moves both during the volatility warm-up (so that no volatility is zero) and between its end and the first
    forecast (so that no correlation is 0/0). *)
Definition moving (x : nat -> nat -> R) (n mpv mpc : nat) : Prop :=
  forall j, (j < n)%nat -> (exists s, (s <= first_pos mpv)%nat /\ x j s <> 0) /\
    (exists s, (first_pos mpv <= s <= first_pos mpv + first_pos mpc)%nat /\ x j s <> 0).
(** The returns y of n assets on T days are within e of the returns x. *)
Definition returns_near (e : R) (n T : nat) (x y : nat -> nat -> R) : Prop :=
  forall j k, (j < n)%nat -> (k < T)%nat -> Rabs (x j k - y j k) <= e.
