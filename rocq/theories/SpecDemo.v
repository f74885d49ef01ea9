(** * Vocabulary: frames of prices. *)
From Coq Require Import String Reals List ZArith.
From Verif Require Import Num Py SpecEwma.
Import ListNotations.
Local Open Scope R_scope.

(** [f] holds the positive prices [P j k] (asset j, row k); nothing is missing. *)
Definition prices_are (f : frame (N := XR) time) (P : nat -> nat -> R) : Prop :=
  forall k j, (k < length (findex f))%nat -> (j < length (fcols f))%nat -> entry f k j = Fin (P j k) /\ 0 < P j k.

(** The i-th name is the name of column [q i]. *)
Definition columns_of (names cols : list string) (q : nat -> nat) : Prop :=
  forall i, (i < length names)%nat -> nth_error cols (q i) = nth_error names i.

(** Relative change from row k to row k + 1. *)
Definition relative (P : nat -> nat -> R) (j k : nat) : R := P j (S k) / P j k - 1.

(** The last price of asset j known at row k (NaN if there is none). *)
Fixpoint last_known (f : frame (N := XR) time) (k j : nat) : xr :=
  match k with
  | O => entry f 0 j
  | S k' => if xisnan (entry f k j) then last_known f k' j else entry f k j
  end.
(** [g] is [f] with every gap closed by the last known price. *)
Definition gaps_closed (f g : frame (N := XR) time) : Prop :=
  findex g = findex f /\ fcols g = fcols f /\ wf_frame g /\
  forall k j, (k < length (findex f))%nat -> (j < length (fcols f))%nat -> entry g k j = last_known f k j.
