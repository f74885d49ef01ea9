(** * The stand-alone helpers of experiments/utils/iterated_ewma_vec.py (lines 98-182): model.
    An array of shape (T, n) is the list of its rows, one of shape (T, n, n) the list of its matrices; finite entries. *)
From Coq Require Import Reals ZArith List.
Set Warnings "-notation-overridden,-ambiguous-paths".
From mathcomp Require Import all_ssreflect all_algebra.
From Verif Require Import RStruct MatR Num Py Combination Regularization.
Set Implicit Arguments.
Unset Strict Implicit.
Unset Printing Implicit Defensive.
Import GRing.Theory.
Local Open Scope ring_scope.
Delimit Scope R_scope with re.

Section VecReg.
  Context (n : nat).
  (** numpy.linalg.eigh of one matrix: eigenvalues and the matrix of eigenvectors; None: LinAlgError.  An argument of the
      model; its contract is [np_eigh_ok] in SpecVecReg.v. *)
  Definition np_eigh_t := 'M[R]_n -> option ('rV[R]_n * 'M[R]_n).

  (** iterated_ewma_vec.py:98-110, _get_realized_covs. *)
  Definition get_realized_covs (returns : seq 'cV[R]_n) : seq 'M[R]_n := [seq r *m r^T | r <- returns].
  (** iterated_ewma_vec.py:113-132, _get_realized_vars. *)
  Definition get_realized_vars (returns : seq 'cV[R]_n) : seq 'cV[R]_n := [seq \col_i (r i 0 * r i 0) | r : 'cV[R]_n <- returns].

  (** iterated_ewma_vec.py:135-143, _refactor_to_corr.  Simplified: a variance that is not positive (inf or NaN in the code) is
      the error value. *)
  Definition refactor_to_corr (Sigmas : seq 'M[R]_n) : res (seq 'M[R]_n) :=
    if all (fun S : 'M[R]_n => [forall i, if Rlt_dec 0 (S i i) then true else false]) Sigmas then
      Ok [seq (let V := \col_i sqrt (S i i) in \matrix_(i, j) (S i j * rcp (V i 0 * V j 0))) | S : 'M[R]_n <- Sigmas]
    else Raise Unmodelled.

  (** The length of the slice [:r] of an axis of length n. *)
  Definition slice_len (r : Z) : nat := if Z.ltb r 0 then Z.to_nat (Z.add (Z.of_nat n) r) else minn (Z.to_nat r) n.
  (** iterated_ewma_vec.py:146-182, _regularize_correlation, for one matrix. *)
  Definition regularize_one_corr (r : Z) (Rm : 'M[R]_n) (dU : 'rV[R]_n * 'M[R]_n) : 'M[R]_n :=
    (* lines 161-162: descending order *)
    let Lamda := rev [seq dU.1 0 i | i <- enum 'I_n] in
    let Q := rev [seq col i dU.2 | i <- enum 'I_n] in
    (* lines 168-170 *)
    let Lamda_r := take (slice_len r) Lamda in
    let Q_r := take (slice_len r) Q in
    let R_lo := of_cols Q_r *m diag_mx (\row_k nth 0 Lamda_r k) *m (of_cols Q_r)^T in
    (* lines 173-175, 178 *)
    R_lo + diag_mx (\row_i (Rm - R_lo) i i).
  (** The whole function: eigh of the stack fails if it fails for one matrix; np.stack of an empty list raises ValueError
      (line 165). *)
  Definition regularize_corrs (eigh : np_eigh_t) (Rs : seq 'M[R]_n) (r : Z) : res (seq 'M[R]_n) :=
    do dec <- mapM (fun A => or_raise (eigh A) LinAlgError) Rs;
    match Rs with
    | [::] => Raise ValueError
    | _ => Ok [seq regularize_one_corr r p.1 p.2 | p <- zip Rs dec]
    end.
End VecReg.
