(** * Exact linear algebra: combination.py over real matrices, and the objective handed to the optimiser. *)
From Coq Require Import Reals Lra ZArith String List Lia.
Set Warnings "-notation-overridden,-ambiguous-paths".
From mathcomp Require Import all_ssreflect all_algebra.
From Verif Require Import RStruct MatR Num Py Combination.
Set Implicit Arguments.
Unset Strict Implicit.
Unset Printing Implicit Defensive.
Import GRing.Theory.
Local Open Scope ring_scope.
Delimit Scope R_scope with re.

(** The operations of numpy in exact arithmetic: [n] assets, [K] experts.  inv fails exactly on singular
    matrices, cholesky is Cholesky's algorithm (MatR.chol). *)
Definition RLA (n K : nat) : LinAlg := {|
  l_num := R;
  l_vec := 'cV[R]_n;
  l_mat := 'M[R]_n;
  l_matB := 'M[R]_(n, K);
  l_matK := 'M[R]_K;
  l_vec0 := 0;
  l_inv := fun M => if M \in unitmx then Some (invmx M) else None;
  l_chol := @chol n;
  l_tmulv := fun L v => L^T *m v;
  l_vsub := fun u v => u - v;
  l_diag := fun L => [seq L i i | i <- enum 'I_n];
  l_colstack := fun cols => \matrix_(i, k) (nth 0 cols k) i 0;
  l_gram := fun B => B^T *m B;
  l_zeroK := 0;
  l_addK := fun P Q => P + Q;
  l_cholK := @chol K;
  l_zeroM := 0;
  l_addM := fun M N => M + N;
  l_scaleM := fun c M => c *: M;
  l_zeroV := 0;
  l_addV := fun u v => u + v;
  l_scaleV := fun c v => c *: v;
  l_invT_mulv := fun L v => if L^T \in unitmx then Some (invmx L^T *m v) else None;
  l_inv_sq := fun L => if L *m L^T \in unitmx then Some (invmx (L *m L^T)) else None
|}.

(** A list of K weights as a vector. *)
Definition wvec K (w : list R) : 'cV[R]_K := \col_k nth 0 w k.

(** combination.py:77-78, the constraints sum(weights) == 1, weights >= 0. *)
Definition feasible K (w : list R) : Prop :=
  size w = K /\ (forall k, (k < K)%N -> (0 <= nth 0 w k)%re) /\ \sum_(k < K) nth 0 w k = 1.

(** combination.py:81-82, the objective
    sum(log(A_param @ weights)) - 0.5 * sum_squares(P_chol_param.T @ weights).
    A is given by its columns; the number of rows is n * window. *)
Definition objective n K (rows : nat) (p : problem (RLA n K)) (w : list R) : R :=
  (\sum_(j < rows) ln (\sum_(k < K) nth 0 (nth [::] p.1 k) j * nth 0 w k)%R
   - (/ 2)%re * nsq ((p.2 : 'M[R]_K)^T *m wvec K w))%R.

(** The number of rows of A_param. *)
Definition rows_of n K (p : problem (RLA n K)) : nat := size (head [::] p.1).

(** What is assumed of the optimiser: whatever it returns is feasible / optimal. *)
Definition returns_feasible n K (slv : solver (RLA n K)) : Prop :=
  forall h p w, slv h p = Some w -> feasible K w.
Definition optimal n K (p : problem (RLA n K)) (w : list R) : Prop :=
  feasible K w /\ forall w', feasible K w' -> (objective (rows_of p) p w' <= objective (rows_of p) p w)%re.
Definition returns_optimal n K (slv : solver (RLA n K)) : Prop :=
  forall h p w, slv h p = Some w -> optimal p w.
