(** * Vocabulary for the smoothing properties. *)
From Coq Require Import Reals ZArith String List Lia.
Set Warnings "-notation-overridden,-ambiguous-paths".
From mathcomp Require Import all_ssreflect all_algebra.
From Verif Require Import RStruct MatR Num Py Smooth.
Set Implicit Arguments.
Unset Strict Implicit.
Unset Printing Implicit Defensive.
Import GRing.Theory.
Local Open Scope ring_scope.
Delimit Scope R_scope with re.

Section Spec.
  Context (n : nat).
  Implicit Types (X Y M : 'M[R]_n).

  (** The Frobenius distance of two matrices. *)
  Definition dist X Y : R := sqrt (\sum_i \sum_j (X i j - Y i j) * (X i j - Y i j)).

  (** The optimiser returns a minimiser of the function it is given whenever it returns. *)
  Definition minimises_theta (solve : theta_solver) : Prop := forall (f : R -> R) theta, solve f = Some theta -> forall theta', (f theta <= f theta')%re.

  (** cvxpy accepts positive semidefinite matrices. *)
  Definition accepts_psd (check : check_t n) : Prop := forall X, psd X -> check X = true.
  (** The optimiser never fails if there is a minimiser. *)
  Definition always_solves (solve : theta_solver) : Prop := forall f : R -> R, (exists theta, forall theta', (f theta <= f theta')%re) -> solve f <> None.

  (** The cost that is traded off on one day: distance to today's matrix against distance to yesterday's smoothed one;
      over all matrices, not only over the line between the two. *)
  Definition day_cost (today yesterday : 'M[R]_n) (lam : R) M : R :=
    (1 / 2 * dist M today ^ 2 + lam * dist M yesterday)%re.

  (** The i-th matrix of a dictionary (in insertion order). *)
  Definition mat_at (d : list (Z * cframe n)) (i : nat) : 'M[R]_n := nth 0 [seq c_val p.2 | p <- d] i.
  (** Every matrix multiplied by c (other units of the returns: c is the square of the factor). *)
  Definition rescale (c : R) (d : list (Z * cframe n)) : list (Z * cframe n) :=
    [seq (p.1, mkC (c_index p.2) (c_columns p.2) (c *: c_val p.2)) | p <- d].
End Spec.
