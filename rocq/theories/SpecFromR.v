(** * Vocabulary for from_ewmas(...).solve(...) in exact arithmetic (C121, C122). *)
From Coq Require Import Reals String List.
Set Warnings "-notation-overridden,-ambiguous-paths".
From mathcomp Require Import all_ssreflect all_algebra.
From Verif Require Import RStruct Num Py Ewma Spec SpecEwma SpecRank SpecRankR.

(** A list of n finite numbers read as a vector (nothing is assumed about lists with NaNs). *)
Definition reads_vector (n : nat) (to_vec : list xr -> 'cV[R]_n) : Prop :=
  forall v : list xr, (forall i, (i < n)%coq_nat -> exists s, List.nth i v NaN = Fin s) ->
  forall i : 'I_n, to_vec v i ord0 = xval (List.nth i v NaN).

(** An item without NaNs in its covariance and mean. *)
Definition finite_item (n : nat) (o : IEWMA (N := XR)) : Prop :=
  nan_free_item n o /\ forall p, (p < n)%coq_nat -> exists s, mean_at o p = Fin s.
