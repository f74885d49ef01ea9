(** * Vocabulary for the exact properties of combination.py. *)
From Coq Require Import Reals ZArith String List.
Set Warnings "-notation-overridden,-ambiguous-paths".
From mathcomp Require Import all_ssreflect all_algebra.
From Verif Require Import RStruct MatR Num Py Combination RealLA.
Set Implicit Arguments.
Unset Strict Implicit.
Unset Printing Implicit Defensive.
Import GRing.Theory.
Local Open Scope ring_scope.
Delimit Scope R_scope with re.

Section Spec.
  Context (n : nat).
  (** {expert: {time: covariance}}, {expert: {time: mean}}, {time: return}. *)
  Definition covs := list (string * list (Z * 'M[R]_n)).
  Definition mus := list (string * list (Z * 'cV[R]_n)).
  Definition rets := list (Z * 'cV[R]_n).

  (** Expert number k; the covariance it issued at time t; the mean (zero if means are omitted). *)
  Definition expert (s : covs) (k : nat) : string * list (Z * 'M[R]_n) := List.nth k s (EmptyString, nil).
  Definition cov_of (s : covs) (k : nat) (t : Z) : option 'M[R]_n := dict_get Z.eqb (snd (expert s k)) t.
  Definition mean_of (m : option mus) (s : covs) (k : nat) (t : Z) : 'cV[R]_n :=
    match m with
    | Some m => match dict_get String.eqb m (fst (expert s k)) with
                | Some d => match dict_get Z.eqb d t with Some v => v | None => 0 end
                | None => 0
                end
    | None => 0
    end.

  Definition all_sym (s : covs) : Prop := forall ks tS, List.In ks s -> List.In tS (snd ks) -> sym (snd tS).
  Definition all_spd (s : covs) : Prop := forall ks tS, List.In ks s -> List.In tS (snd ks) -> spd (snd tS).

  (** [F k] is the lower Cholesky factor of the precision matrix expert k issued at t. *)
  Definition factors_at (s : covs) (t : Z) (F : nat -> 'M[R]_n) : Prop :=
    forall k, (k < List.length s)%N -> exists S, cov_of s k t = Some S /\ S \in unitmx /\ is_chol (invmx S) (F k).

  (** The weighted averages over the experts. *)
  Definition avg_factor (K : nat) (F : nat -> 'M[R]_n) (w : list R) : 'M[R]_n := \sum_(k < K) nth 0 w k *: F k.
  Definition avg_nu (K : nat) (F : nat -> 'M[R]_n) (m : nat -> 'cV[R]_n) (w : list R) : 'cV[R]_n :=
    \sum_(k < K) nth 0 w k *: ((F k)^T *m m k).

  (** The Gaussian log density. *)
  Definition gauss_loglik (r mu : 'cV[R]_n) (Sigma : 'M[R]_n) : R :=
    (- (INR n / 2) * ln (2 * PI) - / 2 * ln (\det Sigma) - / 2 * qf (invmx Sigma) (r - mu))%re.
End Spec.
