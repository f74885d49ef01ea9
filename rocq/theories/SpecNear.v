(** * Vocabulary: optimisers with a tolerance. *)
From Coq Require Import Reals List.
Set Warnings "-notation-overridden,-ambiguous-paths".
From mathcomp Require Import all_ssreflect all_algebra.
From Verif Require Import RStruct MatR Num Py Combination RealLA SpecCombR.
Set Implicit Arguments.
Unset Strict Implicit.
Unset Printing Implicit Defensive.
Delimit Scope R_scope with re.

(** Feasible weights whose objective is within eps of every other feasible one; a solver that returns nothing else. *)
Definition nearly_optimal n K (eps : R) (p : problem (RLA n K)) (w : list R) : Prop :=
  feasible K w /\ forall w', feasible K w' -> (objective (rows_of p) p w' <= objective (rows_of p) p w + eps)%re.
Definition returns_nearly n K (eps : R) (slv : solver (RLA n K)) : Prop :=
  forall h p w, slv h p = Some w -> nearly_optimal eps p w.
(** Two Results that agree up to d in time, weights, mean and covariance. *)
Definition near_result n K (d : R) (r r' : Result (RLA n K)) : Prop :=
  r_time _ r = r_time _ r' /\ (forall k, (k < K)%N -> (Rabs (nth 0 (r_weights _ r') k - nth 0 (r_weights _ r) k) <= d)%re) /\
  (forall i, (Rabs ((r_mean _ r' : 'cV[R]_n) i ord0 - (r_mean _ r : 'cV[R]_n) i ord0) <= d)%re) /\
  (forall i j, (Rabs ((r_cov _ r' : 'M[R]_n) i j - (r_cov _ r : 'M[R]_n) i j) <= d)%re).

