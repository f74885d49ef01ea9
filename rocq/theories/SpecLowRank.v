(** * Vocabulary for the properties of low_rank_ewma.py. *)
From Coq Require Import Reals ZArith String List.
Set Warnings "-notation-overridden,-ambiguous-paths".
From mathcomp Require Import all_ssreflect all_algebra.
From Verif Require Import RStruct MatR Num Py Spec Regularization LowRankEwma.
Set Implicit Arguments.
Unset Strict Implicit.
Unset Printing Implicit Defensive.
Import GRing.Theory.
Local Open Scope ring_scope.
Delimit Scope R_scope with re.

(** k orthonormal eigenvectors (columns of Q) of A with eigenvalues lam, none of the other directions being larger in
    magnitude. *)
Definition top_eig n k (A : 'M[R]_n) (lam : 'rV[R]_k) (Q : 'M[R]_(n, k)) : Prop :=
  Q^T *m Q = 1%:M /\ A *m Q = Q *m diag_mx lam /\
  forall x a, Q^T *m x = 0 -> (Rabs (qf A x) <= Rabs (lam ord0 a) * nsq x)%re.

(** The contract of eigsh(which="LM") for an operator that multiplies by a symmetric matrix. *)
Definition eigsh_ok n k (eigsh : eigsh_t n k) : Prop := forall mv (A : 'M[R]_n) lam Q,
  sym A -> (forall x, mv x = A *m x) -> eigsh mv = Some (lam, Q) -> top_eig A lam Q.

(** It converges on positive semidefinite matrices. *)
Definition eigsh_total n k (eigsh : eigsh_t n k) : Prop := forall mv (A : 'M[R]_n),
  psd A -> (forall x, mv x = A *m x) -> eigsh mv <> None.

(** Exponentially weighted second moments of the rows x_0 .. x_t. *)
Definition ew_moment n (h : R) (x : nat -> 'cV[R]_n) (t : nat) : 'M[R]_n :=
  \matrix_(i, j) ewavg (decay h) (fun s => (x s i 0 * x s j 0)%R) t.
