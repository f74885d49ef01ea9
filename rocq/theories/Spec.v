(** * Specification vocabulary: what the property theorems talk about.

    Nothing here refers to the model of the code.  Each notion is the textbook one. *)
From Coq Require Import Reals List Arith Lia.
Import ListNotations.
Local Open Scope R_scope.

(** Sum of f 0 .. f (n-1). *)
Fixpoint rsum (n : nat) (f : nat -> R) : R :=
  match n with O => 0 | S k => rsum k f + f k end.

(** Decay factor of a half-life: weight one half after h periods. *)
Definition decay (h : R) : R := Rpower 2 (- / h).

(** Exponentially weighted average of x_0 .. x_k with decay b, most recent observation x_k. *)
Definition ewavg (b : R) (x : nat -> R) (k : nat) : R :=
  rsum (S k) (fun s => b ^ (k - s) * x s) / rsum (S k) (fun s => b ^ (k - s)).

(** The weight the average at k gives to observation s. *)
Definition eweight (b : R) (k s : nat) : R :=
  b ^ (k - s) / rsum (S k) (fun s => b ^ (k - s)).
