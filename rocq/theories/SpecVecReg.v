(** * Vocabulary for C105. *)
From Coq Require Import Reals ZArith List.
Set Warnings "-notation-overridden,-ambiguous-paths".
From mathcomp Require Import all_ssreflect all_algebra.
From Verif Require Import RStruct MatR Num Py Regularization SpecReg VecReg.
Set Implicit Arguments.
Unset Strict Implicit.
Unset Printing Implicit Defensive.
Import GRing.Theory.
Local Open Scope ring_scope.

(** The contract of numpy.linalg.eigh on symmetric matrices. *)
Definition np_eigh_ok n (eigh : np_eigh_t n) : Prop := forall A d U, sym A -> eigh A = Some (d, U) -> is_eig A U d.
(** scipy's eigh restricted to a range of indices, with the same eigenvectors. *)
Definition subset_eigh n (eigh : np_eigh_t n) : eigh_t n := fun A lo hi =>
  omap (fun dU : 'rV[R]_n * 'M[R]_n => ([seq dU.1 0 i | i <- enum 'I_n & index_in lo hi i], [seq col i dU.2 | i <- enum 'I_n & index_in lo hi i])) (eigh A).
