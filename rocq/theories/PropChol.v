(** * C142: get_choleskys of large_universes.ipynb factors every covariance exactly.

    Words used: [spd], [sym], [qf] A w = w^T A w, [nsq] v = v^T v (MatR.v); [cframe] (Smooth.v); [cseries] (Choleskys.v). *)
From Coq Require Import Reals ZArith String List Lia Lra.
Set Warnings "-notation-overridden,-ambiguous-paths".
From mathcomp Require Import all_ssreflect all_algebra.
From Verif Require Import RStruct MatR Num Py Combination Smooth Choleskys CholeskysProps.
Import GRing.Theory.
Local Open Scope ring_scope.
Delimit Scope R_scope with re.
Delimit Scope Z_scope with z.

(** C142: from symmetric matrices, the call succeeds exactly when all of them are positive definite, otherwise it raises
    LinAlgError. *)
Theorem C142_succeeds : forall n (covs : list (Z * cframe n)), (forall tS, List.In tS covs -> sym (c_val tS.2)) ->
  ((exists r, get_choleskys covs = Ok r) <-> (forall tS, List.In tS covs -> spd (c_val tS.2))) /\
  (forall e, get_choleskys covs = Raise e -> e = LinAlgError).
Proof. exact chols_succeed. Qed.
Print Assumptions C142_succeeds.

(** C142: both dictionaries have the keys of the input in order; each factor carries the labels of its covariance, is lower
    triangular with a positive diagonal and satisfies F F^T = S; each d is zero, one entry per row label. *)
Theorem C142_factors : forall n (covs : list (Z * cframe n)) Fs ds, (forall tS, List.In tS covs -> sym (c_val tS.2)) ->
  get_choleskys covs = Ok (Fs, ds) ->
  List.map fst Fs = List.map fst covs /\ List.map fst ds = List.map fst covs /\
  forall k t S, List.nth_error covs k = Some (t, S) -> exists F d, List.nth_error Fs k = Some (t, F) /\ List.nth_error ds k = Some (t, d) /\
    c_index F = c_index S /\ c_columns F = c_columns S /\ s_index d = c_index S /\ s_val d = 0 /\
    (forall i j : 'I_n, (i < j)%N -> c_val F i j = 0) /\ (forall i, (0 < c_val F i i)%re) /\ c_val F *m (c_val F)^T = c_val S.
Proof. exact chols_factors. Qed.
Print Assumptions C142_factors.

(** C142: hence the factor form of the risk is the risk: |F^T w|^2 + |d o w|^2 = w^T S w for all weights w. *)
Theorem C142_risk : forall n (covs : list (Z * cframe n)) Fs ds k t S F d (w : 'cV[R]_n), (forall tS, List.In tS covs -> sym (c_val tS.2)) ->
  get_choleskys covs = Ok (Fs, ds) -> List.nth_error covs k = Some (t, S) -> List.nth_error Fs k = Some (t, F) -> List.nth_error ds k = Some (t, d) ->
  (nsq ((c_val F)^T *m w) + nsq (\col_i (s_val d i 0 * w i 0)))%R = qf (c_val S) w.
Proof. exact chols_risk. Qed.
Print Assumptions C142_risk.

(** Two dates: 4 and 9 times the 2 x 2 identity; and a case with a singular matrix. *)
Example C142_case : exists Fs ds, get_choleskys [:: (1%z, mkC [::] [::] ((4%re)%:M : 'M[R]_2)); (2%z, mkC [::] [::] (9%re)%:M)] = Ok (Fs, ds).
Proof. exact chol_case. Qed.
Example C142_case_fails : get_choleskys [:: (1%z, mkC [::] [::] ((4%re)%:M : 'M[R]_2)); (2%z, mkC [::] [::] 0)] = Raise LinAlgError.
Proof. exact chol_case_fails. Qed.
