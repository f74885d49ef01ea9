(** * Vocabulary for C117, C118. *)
From Coq Require Import String Reals List ZArith Arith.
From Verif Require Import Num Py Ewma Spec SpecEwma.
Import ListNotations.
Local Open Scope R_scope.

(** The covariance of an item is free of NaN and positive definite: every portfolio z of the n assets that is not empty
    has a positive predicted variance. *)
Definition definite_item (n : nat) (o : IEWMA (N := XR)) : Prop :=
  (forall p q, (p < n)%nat -> (q < n)%nat -> exists s, cov_at o p q = Fin s) /\
  (forall z : nat -> R, (exists p, (p < n)%nat /\ z p <> 0) ->
     0 < rsum n (fun p => rsum n (fun q => z p * z q * xval (cov_at o p q)))).

(** No portfolio of the n series a, other than the empty one, is zero on all the rows 0 .. r. *)
Definition rows_span (n r : nat) (a : nat -> nat -> R) : Prop :=
  forall w : nat -> R, (forall s, (s <= r)%nat -> rsum n (fun p => w p * a p s) = 0) -> forall p, (p < n)%nat -> w p = 0.

(** No covariance of the item is NaN. *)
Definition nan_free_item (n : nat) (o : IEWMA (N := XR)) : Prop :=
  forall p q, (p < n)%nat -> (q < n)%nat -> exists s, cov_at o p q = Fin s.
