(** * Vocabulary: slightly different data for the combination. *)
From Coq Require Import Reals ZArith String List.
Set Warnings "-notation-overridden,-ambiguous-paths".
From mathcomp Require Import all_ssreflect all_algebra.
From Verif Require Import RStruct MatR Num Py Combination RealLA SpecCombR.
Set Implicit Arguments.
Unset Strict Implicit.
Unset Printing Implicit Defensive.
Delimit Scope R_scope with re.

(** Dictionaries with the same keys in the same order, whose values agree up to e in every entry. *)
Definition near_entries m n (e : R) (a b : list (Z * 'M[R]_(m, n))) : Prop :=
  List.Forall2 (fun x y => fst y = fst x /\ forall i j, (Rabs ((snd y : 'M[R]_(m, n)) i j - (snd x : 'M[R]_(m, n)) i j) <= e)%re) a b.
Definition near_dicts m n (e : R) (a b : list (string * list (Z * 'M[R]_(m, n)))) : Prop :=
  List.Forall2 (fun x y => fst y = fst x /\ near_entries e (snd x) (snd y)) a b.
(** ... or both are missing. *)
Definition near_means n (e : R) (a b : option (mus n)) : Prop :=
  match a, b with
  | None, None => True
  | Some a, Some b => near_dicts (n := 1) e a b
  | _, _ => False
  end.

(** Two Results that agree up to d in time, weights, mean and covariance. *)
Definition results_near n K K' (d : R) (r : Result (RLA n K)) (r' : Result (RLA n K')) : Prop :=
  r_time _ r' = r_time _ r /\ (forall k, (k < K)%N -> (Rabs (nth 0 (r_weights _ r') k - nth 0 (r_weights _ r) k) <= d)%re) /\
  (forall i, (Rabs ((r_mean _ r' : 'cV[R]_n) i ord0 - (r_mean _ r : 'cV[R]_n) i ord0) <= d)%re) /\
  (forall i j, (Rabs ((r_cov _ r' : 'M[R]_n) i j - (r_cov _ r : 'M[R]_n) i j) <= d)%re).
