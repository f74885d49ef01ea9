(** * Properties of em_regularize_covariance (C34-C36, C59, C60), cvx/covariance/regularization.py:80-126.

    Model: Regularization.v (exact arithmetic).  Vocabulary: SpecReg.v ([factor_model], [loglik], [pos_vec]); [spd] in
    MatR.v.  [em_regularize_covariance sigmas initial = (items, ex)]: what the generator yields before it ends (ex = None)
    or raises. *)
From Coq Require Import Reals Lra ZArith List.
Set Warnings "-notation-overridden,-ambiguous-paths".
From mathcomp Require Import all_ssreflect all_algebra.
From Verif Require Import RStruct MatR Py Num Combination Spectral Regularization SpecReg RegProps EmFacts EmProps EmOpt EmMain.
Set Implicit Arguments.
Unset Strict Implicit.
Unset Printing Implicit Defensive.
Import GRing.Theory.
Local Open Scope ring_scope.
Delimit Scope R_scope with re.

(** C34: the likelihood does not decrease, over the five iterations and in each of them; it stays the same only if the
    parameters do. *)
Theorem C34_likelihood : forall n k (sigmas : list (Z * 'M[R]_n)) (initial : list (Z * factors n k)) items ex j t S F0 d0 F d,
  em_regularize_covariance sigmas initial = (items, ex) ->
  List.nth_error items j = Some (t, (F, d)) -> List.nth_error sigmas j = Some (t, S) -> spd S ->
  dict_get Z.eqb initial t = Some (F0, d0) -> pos_vec d0 ->
  (loglik S (factor_model F0 d0) <= loglik S (factor_model F d))%re /\
  (loglik S (factor_model F0 d0) = loglik S (factor_model F d) -> F = F0 /\ d = d0).
Proof. move=> n k sigmas initial items ex j t S F0 d0 F d H1 H2 H3 H4 H5 H6. case: (em_main H1 H2 H3 H4 H5 H6) => H7 [H8 _]. by split. Qed.
Print Assumptions C34_likelihood.

Theorem C34_each_iteration : forall n k (S : 'M[R]_n) (F0 : 'M[R]_(n, k)) d0 F d, spd S -> pos_vec d0 ->
  em_step S (F0, d0) = Ok (F, d) ->
  (loglik S (factor_model F0 d0) <= loglik S (factor_model F d))%re /\
  (loglik S (factor_model F0 d0) = loglik S (factor_model F d) -> (F, d) = (F0, d0)).
Proof.
  move=> n k S F0 d0 F d HS Hd E. case: (em_step_better HS Hd E) => H1 H2. split.
  - exact: loglik_le (loglik_dev S F0 d0) (loglik_dev S F d) H1.
  - rewrite !loglik_dev => E'. apply: H2. lra.
Qed.
Print Assumptions C34_each_iteration.

(** ... and what the item is: five successive EM updates of the starting point of its date. *)
Theorem C34_five_updates : forall n k (sigmas : list (Z * 'M[R]_n)) (initial : list (Z * factors n k)) items ex j t S F0 d0 Fd,
  em_regularize_covariance sigmas initial = (items, ex) ->
  List.nth_error items j = Some (t, Fd) -> List.nth_error sigmas j = Some (t, S) -> spd S ->
  dict_get Z.eqb initial t = Some (F0, d0) -> pos_vec d0 ->
  exists p1 p2 p3 p4, rubin_thayer S (F0, d0) p1 /\ rubin_thayer S p1 p2 /\ rubin_thayer S p2 p3 /\ rubin_thayer S p3 p4 /\
    rubin_thayer S p4 Fd.
Proof. exact em_five. Qed.
Print Assumptions C34_five_updates.

(** C35: no exception, one result per date, positive d, positive definite result. *)
Theorem C35_succeeds : forall n k (sigmas : list (Z * 'M[R]_n)) (initial : list (Z * factors n k)),
  (forall t S, List.In (t, S) sigmas -> spd S) ->
  (forall t S, List.In (t, S) sigmas -> exists F0 d0, dict_get Z.eqb initial t = Some (F0, d0) /\ pos_vec d0) ->
  exists items, em_regularize_covariance sigmas initial = (items, None) /\ List.map fst items = List.map fst sigmas.
Proof. exact em_total. Qed.
Print Assumptions C35_succeeds.

Theorem C35_valid_model : forall n k (sigmas : list (Z * 'M[R]_n)) (initial : list (Z * factors n k)) items ex j t S F0 d0 F d,
  em_regularize_covariance sigmas initial = (items, ex) ->
  List.nth_error items j = Some (t, (F, d)) -> List.nth_error sigmas j = Some (t, S) -> spd S ->
  dict_get Z.eqb initial t = Some (F0, d0) -> pos_vec d0 ->
  pos_vec d /\ spd (factor_model F d).
Proof. move=> n k sigmas initial items ex j t S F0 d0 F d H1 H2 H3 H4 H5 H6. by case: (em_main H1 H2 H3 H4 H5 H6) => _ [_ H7]. Qed.
Print Assumptions C35_valid_model.

(** C36 *)
Theorem C36_fixed_point : forall n k (sigmas : list (Z * 'M[R]_n)) (initial : list (Z * factors n k)) items ex j t Fd F0 d0,
  em_regularize_covariance sigmas initial = (items, ex) ->
  List.nth_error items j = Some (t, Fd) -> dict_get Z.eqb initial t = Some (F0, d0) -> pos_vec d0 ->
  List.nth_error sigmas j = Some (t, factor_model F0 d0) -> Fd = (F0, d0).
Proof. exact em_exact. Qed.
Print Assumptions C36_fixed_point.

(** C59: the algorithm returns its starting point exactly if that solves the likelihood equations. *)
Theorem C59_likelihood_equations : forall n k (sigmas : list (Z * 'M[R]_n)) (initial : list (Z * factors n k)) items ex j t S F0 d0 F d,
  em_regularize_covariance sigmas initial = (items, ex) ->
  List.nth_error items j = Some (t, (F, d)) -> List.nth_error sigmas j = Some (t, S) -> spd S ->
  dict_get Z.eqb initial t = Some (F0, d0) -> pos_vec d0 ->
  (F, d) = (F0, d0) <-> (S *m invmx (factor_model F0 d0) *m F0 = F0 /\ forall i, factor_model F0 d0 i i = S i i).
Proof. exact em_stationary. Qed.
Print Assumptions C59_likelihood_equations.

(** C60: a date without starting point is a KeyError, after everything before it has been yielded. *)
Theorem C60_missing_start : forall n k (sigmas1 : list (Z * 'M[R]_n)) t S sigmas2 (initial : list (Z * factors n k)),
  (forall u S', List.In (u, S') sigmas1 -> spd S') ->
  (forall u S', List.In (u, S') sigmas1 -> exists F0 d0, dict_get Z.eqb initial u = Some (F0, d0) /\ pos_vec d0) ->
  dict_get Z.eqb initial t = None ->
  exists items, em_regularize_covariance (List.app sigmas1 ((t, S) :: sigmas2)) initial = (items, Some KeyError) /\
    List.map fst items = List.map fst sigmas1.
Proof. exact em_missing. Qed.
Print Assumptions C60_missing_start.

(** ** A case that meets the hypotheses: two assets, one factor. *)
Definition exF : 'M[R]_(2, 1) := \matrix_(i, j) (if i == ord0 then 1 else 2)%re.
Definition exd : 'cV[R]_2 := \col_i (if i == ord0 then 1 else 3)%re.
Definition exS : 'M[R]_2 := factor_model (0 : 'M[R]_(2, 1)) (\col_i (if i == ord0 then 5 else 7)%re).
Definition ex_sig : list (Z * 'M[R]_2) := (Z0, exS) :: (Zpos xH, factor_model exF exd) :: nil.
Definition ex_init : list (Z * factors 2 1) := (Zpos xH, (exF, exd)) :: (Z0, (exF, exd)) :: nil.
Example exd_pos : pos_vec exd.
Proof. move=> i. rewrite mxE. case: ifP => _; lra. Qed.
Example exS_spd : spd exS.
Proof. apply: fm_spd => i. rewrite mxE. case: ifP => _; lra. Qed.
Example ex_em_sig t S : List.In (t, S) ex_sig -> spd S.
Proof. case=> [[_ <-]|[[_ <-]|[]]]; [exact: exS_spd|apply: fm_spd; exact: exd_pos]. Qed.
Example ex_em_start t S : List.In (t, S) ex_sig -> exists F0 d0, dict_get Z.eqb ex_init t = Some (F0, d0) /\ pos_vec d0.
Proof. case=> [[<- _]|[[<- _]|[]]]; exists exF, exd; split=> //; exact: exd_pos. Qed.
Example C34_C59_met : exists items Fd0 Fd1, em_regularize_covariance ex_sig ex_init = (items, None) /\
  List.nth_error items 0 = Some (Z0, Fd0) /\ List.nth_error items 1 = Some (Zpos xH, Fd1) /\
  Fd1 = (exF, exd) /\ Fd0 <> (exF, exd).
Proof.
  case: (C35_succeeds ex_em_sig ex_em_start) => items [E1 E2]. case: items E1 E2 => [//|[t0 Fd0] [//|[t1 Fd1] [|//]]] E1 [E2 E3]. subst t0 t1.
  exists ((Z0, Fd0) :: (Zpos xH, Fd1) :: nil), Fd0, Fd1. do 3 split=> //. split.
    exact: (C36_fixed_point E1 (j := 1) erefl erefl exd_pos erefl).
  case: Fd0 E1 => F d E1 E. have := proj1 (C59_likelihood_equations E1 (j := 0) erefl erefl exS_spd erefl exd_pos) E.
  case=> _ /(_ ord0). rewrite !fm_entry eqxx !mulr1n !big_ord_recl !big_ord0 !mxE /=. toR. lra.
Qed.
Example C60_met : exists items, em_regularize_covariance (List.app ex_sig ((Z.of_nat 7, exS) :: nil)) ex_init = (items, Some KeyError) /\ List.length items = 2%N.
Proof.
  case: (C60_missing_start exS nil ex_em_sig ex_em_start (t := Z.of_nat 7) erefl) => items [E1 E2]. exists items. split=> //.
  by have := congr1 (@List.length _) E2; rewrite List.map_length.
Qed.
