(** * Vocabulary for binary64 results. *)
From Coq Require Import ZArith Reals List.
From Flocq Require Import Core BinarySingleNaN.
From Verif Require Import Num Py Ieee.
Import ListNotations.
Local Open Scope R_scope.

(** The real number a binary64 stands for (0 for NaN and infinities), and: it is a number. *)
Definition fval (x : b64) : R := B2R x.
Definition isnum (x : b64) : Prop := is_finite x = true.

(** The entries of a frame: asset j, row k. *)
Definition fcell {L K} (f : frame (N := IEEE L) K) (k j : nat) : b64 := nth j (nth k (fvals f) []) B754_nan.

(** np.power is a good approximation of integer powers of b: a number, with absolute error at most 2^-52. *)
Definition pow_accurate (L : libm) (b : b64) : Prop :=
  forall k, isnum (m_pow L b k) /\ Rabs (fval (m_pow L b k) - fval b ^ k) <= bpow radix2 (-52).
(** A mathematical library with small absolute errors where the code uses it: log 2, exp of negative numbers, powers of
    numbers in [0, 1]. *)
Definition accurate (L : libm) : Prop :=
  (forall x, isnum x -> fval x = 2 -> isnum (m_ln L x) /\ Rabs (fval (m_ln L x) - ln 2) <= bpow radix2 (-53)) /\
  (forall x, isnum x -> fval x <= 0 -> isnum (m_exp L x) /\ Rabs (fval (m_exp L x) - exp (fval x)) <= bpow radix2 (-53)) /\
  (forall x, isnum x -> 0 <= fval x <= 1 -> pow_accurate L x).
(** Every entry is a number of size at most M. *)
Definition numbers {L} (f : frame (N := IEEE L) time) (M : R) : Prop :=
  forall k j, (k < length (findex f))%nat -> (j < length (fcols f))%nat -> isnum (fcell f k j) /\ Rabs (fval (fcell f k j)) <= M.
