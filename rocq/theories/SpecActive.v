(** * A condition on returns. *)
From Coq Require Import Reals.
From Verif Require Import SpecEwma.
Local Open Scope R_scope.

(** Every asset has a non-zero return between the end of the volatility warm-up and the first forecast. *)
Definition active (x : nat -> nat -> R) (n mpv mpc : nat) : Prop :=
  forall j, (j < n)%nat -> exists s, (first_pos mpv <= s <= first_pos mpv + first_pos mpc)%nat /\ x j s <> 0.
