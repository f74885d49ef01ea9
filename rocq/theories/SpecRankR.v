(** * Vocabulary for C118: a covariance table read as a matrix. *)
From Coq Require Import Reals String List.
Set Warnings "-notation-overridden,-ambiguous-paths".
From mathcomp Require Import all_ssreflect all_algebra.
From Verif Require Import RStruct Num Py Ewma Spec SpecEwma SpecRank.

(** .values of a NaN-free table of n assets is the matrix of its entries (nothing is assumed about a table with NaNs). *)
Definition reads_matrix (n : nat) (to_mat : frame (N := XR) string -> 'M[R]_n) : Prop :=
  forall o : IEWMA (N := XR), nan_free_item n o -> forall i j : 'I_n, to_mat (icov o) i j = xval (cov_at o i j).
