(** * Vocabulary for ccp_regularize.py (C52, C76-C79). *)
From Coq Require Import Reals.
Set Warnings "-notation-overridden,-ambiguous-paths".
From mathcomp Require Import all_ssreflect all_algebra.
From Verif Require Import RStruct MatR Py Ccp.
Set Implicit Arguments.
Unset Strict Implicit.
Unset Printing Implicit Defensive.
Import GRing.Theory.
Local Open Scope ring_scope.

(** x minimises f over dom. *)
Definition minimiser T (f : T -> R) (dom : T -> Prop) (x : T) : Prop := dom x /\ forall y, dom y -> Rle (f x) (f y).

Section Spec.
  Context (n k : nat).
  (** The inverse covariance (precision) matrix that (e, G) stands for. *)
  Definition precision (e : 'cV[R]_n) (G : 'M[R]_(n, k)) : 'M[R]_n := diag_mx e^T - G *m G^T.
  (** The parameters of the state describe a covariance matrix. *)
  Definition valid (s : state n k) : Prop := spd (precision (s_e s) (s_G s)).
  (** The assumption on cvxpy/MOSEK: a returned point is a minimiser of the problem posed. *)
  Definition honest (solve : csolver n k) : Prop := forall f dom x, solve f dom = CSolved x -> minimiser f dom x.
  (** m calls of iterate. *)
  Fixpoint ccp_steps (solve : csolver n k) (m : nat) (s : state n k) : res (state n k) :=
    match m with 0 => Ok s | m.+1 => bind (ccp_steps solve m s) (iterate solve) end.
  (** tr(G^T Sigma H): the inner product of G and H with weight Sigma. *)
  Definition inner (G H : 'M[R]_(n, k)) : R := \tr (G^T *m H).
End Spec.
