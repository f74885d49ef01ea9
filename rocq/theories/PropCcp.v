(** * Properties of ccp_regularize.py (C52, C76-C81), experiments/utils/ccp_regularize.py.

    Model: Ccp.v (exact arithmetic).  Vocabulary: SpecCcp.v ([precision], [valid], [minimiser], [honest], [ccp_steps],
    [inner]), SpecReg.v ([factor_model], [loglik], [pos_vec]); [spd] in MatR.v. *)
From Coq Require Import Reals Lra ZArith.
Set Warnings "-notation-overridden,-ambiguous-paths".
From mathcomp Require Import all_ssreflect all_algebra.
From Verif Require Import RStruct MatR Py Num Spectral Combination Regularization SpecReg RegProps RegOpt EmFacts EmProps Ccp SpecCcp CcpProps CcpOpt CcpMain CcpEx.
Set Implicit Arguments.
Unset Strict Implicit.
Unset Printing Implicit Defensive.
Import GRing.Theory.
Local Open Scope ring_scope.
Delimit Scope R_scope with re.

(** C52: the constructor's parameters describe the inverse covariance, build goes back. *)
Theorem C52_parametrisation : forall n k (Sigma : 'M[R]_n) (F : 'M[R]_(n, k)) (d : 'cV[R]_n), pos_vec d ->
  exists s, new_state Sigma F d = Ok s /\ s_Sigma s = Sigma /\
    diag_mx (s_e s)^T - s_G s *m (s_G s)^T = invmx (F *m F^T + diag_mx d^T).
Proof. move=> n k Sigma F d Hd. have [G [E H]] := new_ok Sigma F Hd. by exists (mkState (\col_i rcp (d i 0)) G Sigma false). Qed.
Print Assumptions C52_parametrisation.
Theorem C52_round_trip : forall n k (Sigma : 'M[R]_n) (F : 'M[R]_(n, k)) (d : 'cV[R]_n), pos_vec d ->
  exists s F', new_state Sigma F d = Ok s /\ build s = Ok (F', d) /\ F' *m F'^T = F *m F^T.
Proof. exact round_trip. Qed.
Print Assumptions C52_round_trip.
Theorem C52_build : forall n k (s : state n k), spd (diag_mx (s_e s)^T - s_G s *m (s_G s)^T) ->
  exists F d, build s = Ok (F, d) /\ pos_vec d /\ F *m F^T + diag_mx d^T = invmx (diag_mx (s_e s)^T - s_G s *m (s_G s)^T).
Proof. exact build_valid. Qed.
Print Assumptions C52_build.

(** C76: objective() is -2 times the log-likelihood of the factor model, and bounded below. *)
Theorem C76_objective : forall n k (Sigma : 'M[R]_n) (F : 'M[R]_(n, k)) (d : 'cV[R]_n) s, spd Sigma -> pos_vec d ->
  new_state Sigma F d = Ok s ->
  exists o : R, objective s = Ok o /\ o = (- 2 * loglik Sigma (factor_model F d))%re /\ (ln (\det Sigma) + INR n <= o)%re.
Proof.
  move=> n k Sigma F d s HS Hd. have [G [E H]] := new_ok Sigma F Hd. rewrite E => [[<-]].
  set s' := mkState _ _ _ _. have Hv : valid s' by rewrite /valid /= H; exact: K_spd_of. have Eo := objective_ok (s := s') HS Hv.
  eexists. split; first exact: Eo. split; last exact: objective_lower Eo. rewrite (objective_loglik (s := s') HS Hv Eo) /= H invmxK. by [].
Qed.
Print Assumptions C76_objective.
Theorem C76_any_state : forall n k (s : state n k), spd (s_Sigma s) -> valid s ->
  exists o : R, objective s = Ok o /\ o = (- 2 * loglik (s_Sigma s) (invmx (precision (s_e s) (s_G s))))%re.
Proof. move=> n k s HS Hv. have E := objective_ok HS Hv. eexists. split; first exact: E. exact: objective_loglik E. Qed.
Print Assumptions C76_any_state.

(** C77: descent, in every iteration and over any number of them. *)
Theorem C77_iteration : forall n k (solve : csolver n k) s s', honest solve -> spd (s_Sigma s) -> valid s ->
  iterate solve s = Ok s' ->
  valid s' /\ s_Sigma s' = s_Sigma s /\
  exists o o' : R, objective s = Ok o /\ objective s' = Ok o' /\
    (o' <= o)%re /\ (o' = o -> s_G s' = s_G s).
Proof.
  move=> n k solve s s' Hh HS Hv E. have [H1 [H2 [_ [o [o' [E1 [E2 H3]]]]]]] := iterate_descent Hh HS Hv E. do 2 split=> //. exists o, o'.
  have H4 := inner_ge0 (s_G s' - s_G s) (spd_psd HS). do 2 split=> //. split; first lra.
  move=> Eo. apply/eqP. rewrite -subr_eq0. apply/eqP. apply: (inner_eq0 HS). lra.
Qed.
Print Assumptions C77_iteration.
Theorem C77_likelihood : forall n k (solve : csolver n k) m (Sigma : 'M[R]_n) F0 d0 s0 s, honest solve -> spd Sigma -> pos_vec d0 ->
  new_state Sigma F0 d0 = Ok s0 -> ccp_steps solve m (construct_problem s0) = Ok s ->
  exists F d, build s = Ok (F, d) /\ pos_vec d /\ spd (factor_model F d) /\
    (loglik Sigma (factor_model F0 d0) <= loglik Sigma (factor_model F d))%re.
Proof. exact ccp_run. Qed.
Print Assumptions C77_likelihood.

(** C78: the hand-written gradients.  First-order lower bound at every point; the update stands still exactly at the
    minimiser, which is unique. *)
Theorem C78_gradient : forall n k (Sigma : 'M[R]_n) (Gk : 'M[R]_(n, k)) (e : 'cV[R]_n) G, ccp_domain (e, G) ->
  exists cf ge, common_factor e G = Ok cf /\ grad_e e G cf = Ok ge /\
    forall (e' : 'cV[R]_n) G', ccp_domain (e', G') ->
      (ccp_objective Sigma Gk (e, G) + ((\sum_i (ge i 0 + Sigma i i) * (e' i 0 - e i 0))%R + inner (grad_G cf - 2%re *: (Sigma *m Gk))%R (G' - G)%R)
       <= ccp_objective Sigma Gk (e', G'))%re.
Proof.
  move=> n k Sigma Gk e G /dom_spd /= HK. exists (invmx (precision e G) *m G), (\col_i (- invmx (precision e G) i i)).
  split; first exact: cf_ok. split; first exact: ge_ok. move=> e' G' /dom_spd /= HK'. have := proj1 (surr_convex Sigma Gk HK HK').
  rewrite /lin /gG /grad_G -scalerBr. by have -> : \sum_i gE Sigma e G i 0 * (e' - e) i 0 = \sum_i ((\col_i (- invmx (precision e G) i i) : 'cV[R]_n) i 0 + Sigma i i) * (e' i 0 - e i 0)
    by apply: eq_bigr => i _; rewrite !mxE [- _ + _]addrC.
Qed.
Print Assumptions C78_gradient.
Theorem C78_stationary_iff_minimal : forall n k (Sigma : 'M[R]_n) (Gk : 'M[R]_(n, k)) x, ccp_domain x ->
  prox_step Sigma Gk x = Ok x <-> minimiser (ccp_objective Sigma Gk) (@ccp_domain n k) x.
Proof. exact prox_fixed. Qed.
Print Assumptions C78_stationary_iff_minimal.
Theorem C78_unique : forall n k (Sigma : 'M[R]_n) (Gk : 'M[R]_(n, k)) x y,
  minimiser (ccp_objective Sigma Gk) (@ccp_domain n k) x -> minimiser (ccp_objective Sigma Gk) (@ccp_domain n k) y -> x = y.
Proof. exact min_unique. Qed.
Print Assumptions C78_unique.

(** C79: an iteration keeps the parameters exactly if the model solves the likelihood equations (the same equations as
    for expectation-maximisation, C59); in particular an exact factor model is kept. *)
Theorem C79_fixed_points : forall n k (solve : csolver n k) (Sigma : 'M[R]_n) F d s s', honest solve -> spd Sigma -> pos_vec d ->
  new_state Sigma F d = Ok s -> iterate solve (construct_problem s) = Ok s' ->
  (s_e s', s_G s') = (s_e s, s_G s) <-> (Sigma *m invmx (factor_model F d) *m F = F /\ forall i, factor_model F d i i = Sigma i i).
Proof. exact keep_iff. Qed.
Print Assumptions C79_fixed_points.
Theorem C79_exact_model : forall n k (solve : csolver n k) (F : 'M[R]_(n, k)) (d : 'cV[R]_n) s s', honest solve -> pos_vec d ->
  new_state (factor_model F d) F d = Ok s -> iterate solve (construct_problem s) = Ok s' -> (s_e s', s_G s') = (s_e s, s_G s).
Proof.
  move=> n k solve F d s s' Hh Hd E E'. apply: (proj2 (keep_iff Hh (fm_spd F Hd) Hd E E')). split=> //. by rewrite mulmxV ?mul1mx // V_unit.
Qed.
Print Assumptions C79_exact_model.

(** C80: what iterate() raises. *)
Theorem C80_outcomes : forall n k (solve : csolver n k) (s : state n k),
  (s_prob s = false -> iterate solve s = Raise AttributeError) /\
  (s_prob s = true -> solve (ccp_objective (s_Sigma s) (s_G s)) (@ccp_domain n k) = CFailed n k -> iterate solve s = Raise SolverError) /\
  (s_prob s = true -> spd (s_Sigma s) -> valid s -> solve (ccp_objective (s_Sigma s) (s_G s)) (@ccp_domain n k) = CNone n k -> iterate solve s = Raise AttributeError) /\
  (forall x, s_prob s = true -> spd (s_Sigma s) -> valid s -> solve (ccp_objective (s_Sigma s) (s_G s)) (@ccp_domain n k) = CSolved x ->
     iterate solve s = Ok (mkState x.1 x.2 (s_Sigma s) true)) /\
  (forall x, s_prob s = true -> sym (s_Sigma s) -> ~ spd (s_Sigma s) -> solve (ccp_objective (s_Sigma s) (s_G s)) (@ccp_domain n k) = CSolved x ->
     iterate solve s = Raise LinAlgError).
Proof.
  move=> n k solve s. split; first by rewrite /iterate => ->. split; first by rewrite /iterate => -> ->.
  split; first by move=> Hp HS Hv E; rewrite /iterate Hp E (objective_ok HS Hv). split; first by move=> x; exact: iterate_ok.
  move=> x Hp Hs HS E. rewrite /iterate Hp E /objective /np_chol. case Ec: (chol (s_Sigma s)) => [C|] //. case: HS. exact: is_chol_spd (chol_is_chol Hs Ec).
Qed.
Print Assumptions C80_outcomes.

(** C81: the proximal-gradient variant has no safeguard: valid input, no exception, negative idiosyncratic variances. *)
Theorem C81_proximal_unsafe : exists (Sigma : 'M[R]_1) (F : 'M[R]_(1, 1)) (d : 'cV[R]_1) s s' F' d',
  spd Sigma /\ pos_vec d /\ new_state Sigma F d = Ok s /\ iterate2 s = (s', None) /\ build s' = Ok (F', d') /\ forall i, (d' i ord0 < 0)%re.
Proof.
  have [s [s' [F' [d' [E1 [E2 [E3 H]]]]]]] := bad_iterate. exists bS, 0, (be 1%re), s, s', F', d'. split; first exact: bS_spd.
  split; first by move=> i; rewrite mxE; exact: Rlt_0_1. by [].
Qed.
Print Assumptions C81_proximal_unsafe.

(** ** Cases that meet the hypotheses: an ideal solver; two assets, one factor. *)
Definition exF : 'M[R]_(2, 1) := \matrix_(i, j) (if i == ord0 then 1 else 2)%re.
Definition exd : 'cV[R]_2 := \col_i (if i == ord0 then 1 else 3)%re.
Definition exv : 'cV[R]_2 := \col_i (if i == ord0 then 5 else 7)%re.
Definition exS : 'M[R]_2 := factor_model (0 : 'M[R]_(2, 1)) exv.
Example exd_pos : pos_vec exd.
Proof. move=> i. rewrite mxE. case: ifP => _; lra. Qed.
Example exv_pos : pos_vec exv.
Proof. move=> i. rewrite mxE. case: ifP => _; lra. Qed.
Example exS_spd : spd exS.
Proof. exact: fm_spd exv_pos. Qed.
Example new_zero (Sigma : 'M[R]_2) d : pos_vec d -> new_state Sigma (0 : 'M[R]_(2, 1)) d = Ok (mkState (\col_i rcp (d i 0)) 0 Sigma false).
Proof.
  move=> Hd. have [L [E _]] := chol_ok (one_spd 1). rewrite /new_state inverse_ok //= rt_Di !mulmx0 addr0 (inv_ok (one_spd 1)) /= invmx1 E /= mul0mx rt_Di mulmx0. by [].
Qed.
(** The exact model: the solver finds the minimiser, the state stays. *)
Example C79_met : exists s s', new_state (factor_model exF exd) exF exd = Ok s /\ iterate (@ideal 2 1) (construct_problem s) = Ok s' /\
  honest (@ideal 2 1) /\ (s_e s', s_G s') = (s_e s, s_G s).
Proof.
  have [G [E HK]] := new_ok (factor_model exF exd) exF exd_pos. set s := mkState _ _ _ _ in E. exists s.
  have HKs : spd (precision (s_e s) (s_G s)) by rewrite /= HK; exact: (K_spd_of exF exd_pos).
  have Hm : minimiser (ccp_objective (factor_model exF exd) (s_G s)) (@ccp_domain 2 1) (s_e s, s_G s).
    apply: (proj2 (min_iff _ _ HKs)). apply: (proj2 (grad_zero_iff exd_pos E)). split=> //. by rewrite mulmxV ?mul1mx // V_unit //; exact: exd_pos.
  have [y Ey] := ideal_solves Hm. have Ei := iterate_ok (s := construct_problem s) erefl (fm_spd exF exd_pos) HKs Ey. eexists. split; first exact: E. split; first exact: Ei.
  split; first exact: ideal_honest. exact: C79_exact_model (@ideal_honest 2 1) exd_pos E Ei.
Qed.
(** A wrong model: one iteration finds the right one, the objective falls. *)
Example C77_met : exists s s' o o', new_state exS (0 : 'M[R]_(2, 1)) exd = Ok s /\ ccp_steps (@ideal 2 1) 1 (construct_problem s) = Ok s' /\
  objective s = Ok o /\ objective s' = Ok o' /\ (o' < o)%re /\ build s' = Ok (0, exv).
Proof.
  have E := new_zero exS exd_pos. have E' := new_zero exS exv_pos. set s := mkState _ _ _ _ in E. set t := mkState _ _ _ _ in E'.
  have HKs : valid s. have [G [E1 HK]] := new_ok exS (0 : 'M[R]_(2, 1)) exd_pos. move: E1. rewrite E => [[EG]]. rewrite /valid /= EG HK. exact: (K_spd_of _ exd_pos).
  have HKt : valid t. have [G [E1 HK]] := new_ok exS (0 : 'M[R]_(2, 1)) exv_pos. move: E1. rewrite E' => [[EG]]. rewrite /valid /= EG HK. exact: (K_spd_of _ exv_pos).
  have Hm : minimiser (ccp_objective exS (s_G s)) (@ccp_domain 2 1) (s_e t, s_G t).
    apply: (proj2 (min_iff _ _ HKt)). apply: (proj2 (grad_zero_iff exv_pos E')). by rewrite mulmx0.
  have [y Ey] := ideal_solves Hm. have Ei := iterate_ok (s := construct_problem s) erefl exS_spd HKs Ey.
  have Eyt : y = (s_e t, s_G t) by apply: (min_unique _ Hm); exact: (@ideal_honest 2 1 _ _ _ Ey).
  have Eos := objective_ok (s := s) exS_spd HKs. have Eot := objective_ok (s := t) exS_spd HKt.
  rewrite Eyt in Ei. exists s, (construct_problem t). do 2 eexists. split; first exact: E. split; first exact: Ei. split; first exact: Eos. split; first exact: Eot. split.
  - apply: Rnot_le_lt => Hle. have Hs : minimiser (ccp_objective exS (s_G s)) (@ccp_domain 2 1) (s_e s, s_G s).
      split; first exact/dom_spd. move=> z Hz. apply: Rle_trans (proj2 Hm z Hz). rewrite (surr_gap (s_G s) (s_e s) (s_G s) (proj1 exS_spd)) (surr_gap (s_G s) (s_e t) (s_G t) (proj1 exS_spd)).
      have E0 : s_G t = s_G s by []. rewrite E0 in Hle *. move: Hle. move: (inner (s_G s) _) (inner _ _) => a b. change (s_e (construct_problem t)) with (s_e t). rewrite [s_G (construct_problem t)]/=. move: (dev2 _ _ _) (dev2 _ _ _) => c d. toR. lra.
    have := congr1 fst (min_unique Hs Hm). move/colP/(_ ord0). rewrite !mxE /= /rcp. toR. lra.
  - have [L [EL _]] := chol_ok (one_spd 1). rewrite /build /= inverse_ok; last exact: (pos_rcp exv_pos).
    rewrite /= rt_Di !mulmx0 subr0 (inv_ok (one_spd 1)) /= invmx1 EL /= mul0mx rt_Di mulmx0 (rcpK exv_pos). by [].
Qed.
