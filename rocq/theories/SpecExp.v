(** * Vocabulary for the properties of experiments/utils/experiment_utils.py. *)
From Coq Require Import Reals ZArith String List.
Set Warnings "-notation-overridden,-ambiguous-paths".
From mathcomp Require Import all_ssreflect all_algebra.
From Verif Require Import RStruct MatR Num Py ExpUtils.
Set Implicit Arguments.
Unset Strict Implicit.
Unset Printing Implicit Defensive.
Import GRing.Theory.
Local Open Scope ring_scope.
Delimit Scope R_scope with re.

(** Sum of r_s r_s' over the last m rows up to row t (fewer at the beginning). *)
Definition window_sum n (rows : seq 'cV[R]_n) (m t : nat) : 'M[R]_n :=
  \sum_(s < t.+1 | (t < s + m)%N) (nth 0 rows s *m (nth 0 rows s)^T).

(** Density of the normal distribution N(m, S) on R^n. *)
Definition normal_density n (m : 'cV[R]_n) (S : 'M[R]_n) (x : 'cV[R]_n) : R :=
  (/ sqrt ((2 * PI) ^ n * \det S) * exp (- / 2 * qf (invmx S) (x - m)%R))%re.

(** Upper triangle in row-major order: (0,0), (0,1), ..., (0,n-1), (1,1), ... *)
Definition upper_triangle {A} (n : nat) (S : nat -> nat -> A) : seq A :=
  flatten [seq [seq S i j | j <- iota i (n - i)] | i <- iota 0 n].

(** Fraction of the data not above v. *)
Definition fraction_le (data : seq R) (v : R) : R := (INR (count (fun x => Rleb x v) data) / INR (size data))%re.

Section SpecExp.
  Context (n : nat).
  Notation heap := (heap n).
  Notation vec := 'cV[R]_n.
  Implicit Types (h : heap) (l : nat).

  (** The matrix a program reads as Sigmas[key]. *)
  Definition matrix_at h l (key : Z) : option 'M[R]_n :=
    if hget h l is Some (Dict d) then
      obind (fun a => if hget h a is Some (Arr Sg) then Some Sg else None) (dict_get Z.eqb d key)
    else None.
  (** A dictionary of matrices: distinct keys, every value an array. *)
  Definition dict_ok h l (keys : list Z) : Prop :=
    exists d, hget h l = Some (Dict n d) /\ map fst d = keys /\ List.NoDup keys /\
      forall k a, List.In (k, a) d -> exists S, hget h a = Some (Arr S).
  (** Variances multiplied by c, covariances unchanged. *)
  Definition scale_variances (c : R) (S : 'M[R]_n) : 'M[R]_n := \matrix_(i, j) (if i == j then c * S i j else S i j).
  (** k calls in a row on the same dictionary. *)
  Fixpoint add_calls (k : nat) h l (lamda : R) : res heap :=
    if k is k.+1 then do hl <- add_to_diagonal h l lamda; add_calls k hl.1 l lamda else Ok h.

  (** The means used: the given ones, or zero. *)
  Definition means_or0 (rs : seq vec) (ms : option (seq vec)) : seq vec := if ms is Some m then m else [seq 0 | _ <- rs].
  (** The row after position k of a frame with rows [rows]: NaN after the last one. *)
  Definition next_row (rows : seq nrow) (k : nat) : nrow := nth (nseq n None) rows k.+1.
  (** Rows of finite numbers as rows of a frame. *)
  Definition finite_row (x : vec) : nrow := [seq Some (x i ord0) | i <- enum 'I_n].
  (** Scores of a frame of finite returns: item q is (row position of its time stamp, covariance). *)
  Definition scores (ts : seq Z) (xs : seq vec) (mean : nat -> vec) (items : seq (nat * 'M[R]_n)) : list (Z * option R) :=
    [seq (nth Z0 ts q.1, Some (ln (normal_density (mean q.1) q.2 (nth 0 xs q.1.+1)))) | q <- items & (q.1.+1 < size ts)%N].
End SpecExp.
