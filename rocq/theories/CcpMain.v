(** * Proofs about ccp_regularize.py: the surrogate's minimisers, iterate, iterate2. *)
From Coq Require Import Reals Lra ZArith.
Set Warnings "-notation-overridden,-ambiguous-paths".
From mathcomp Require Import all_ssreflect all_algebra.
From Verif Require Import RStruct MatR Py Num Spectral Combination Regularization SpecReg RegProps RegOpt EmFacts EmProps Ccp SpecCcp CcpProps CcpOpt.
Set Implicit Arguments.
Unset Strict Implicit.
Unset Printing Implicit Defensive.
Import GRing.Theory.
Local Open Scope ring_scope.
Delimit Scope R_scope with re.

Lemma small_neg (N c t0 : R) : (0 < t0)%re -> (forall t : R, (0 < t < t0)%re -> (N <= c * t)%re) -> (N <= 0)%re.
Proof.
  move=> H0 Hc. case: (Rle_lt_dec N 0) => // HN. have Hc0 : (0 < c)%re.
    have := Hc (t0 / 2)%re ltac:(lra). move=> H3. case: (Rle_lt_dec c 0) => // Hc0. have := Rmult_le_compat_r (t0 / 2) _ _ ltac:(lra) Hc0. lra.
  have Hq : (0 < N / (2 * c))%re by apply: Rdiv_lt_0_compat; lra.
  have Eq : (c * (N / (2 * c)))%re = (N / 2)%re by field; lra.
  have [H1|H1] := Rle_lt_dec (t0 / 2) (N / (2 * c)).
  - have := Hc (t0 / 2)%re ltac:(lra). have := Rmult_le_compat_l c _ _ (Rlt_le _ _ Hc0) H1. lra.
  - have := Hc (N / (2 * c))%re ltac:(lra). lra.
Qed.

Section Ccp.
  Context (n k : nat).
  Notation vec := 'cV[R]_n.
  Notation fac := 'M[R]_(n, k).
  Implicit Types (e d : vec) (F G : fac) (Sg : 'M[R]_n) (x y : vec * fac).
  Notation V e G := (invmx (precision e G)).

  (** ** The code's gradient. *)
  Lemma cf_ok e G : spd (precision e G) -> common_factor e G = Ok (V e G *m G).
  Proof.
    move=> HK. rewrite /common_factor inverse_ok; last exact: K_pos HK. rewrite /= rt_Di mulmxA -/(Cm e G) (inv_ok (C_spd HK)) /= rt_Di K_invG //.
    by rewrite mulmxA.
  Qed.
  Lemma ge_ok e G : spd (precision e G) -> grad_e e G (V e G *m G) = Ok (\col_i (- V e G i i)).
  Proof.
    move=> HK. rewrite /grad_e inverse_ok /=; last exact: K_pos HK. congr Ok. apply/colP => i. rewrite ![LHS]mxE [RHS]mxE. congr (- _).
    rewrite rt_Di K_invG // trmx_mul Di_sym !mulmxA [in RHS]K_inv // [RHS]addE. congr (_ + _). by rewrite !mxE eqxx mulr1n.
  Qed.
  Lemma dom_spd x : ccp_domain x <-> spd (precision x.1 x.2).
  Proof. exact: big_spd. Qed.
  Definition gE Sg e G : vec := \col_i (Sg i i - V e G i i).
  Definition gG Sg (Gk : fac) e G : fac := 2%re *: (V e G *m G - Sg *m Gk).
  Definition lin Sg (Gk : fac) e G (he : vec) (hG : fac) : R := ((\sum_i gE Sg e G i 0 * he i 0)%R + inner (gG Sg Gk e G) hG)%re.
  Lemma inner_Zl (a : R) G (H : fac) : inner (a *: G) H = (a * inner G H)%re.
  Proof. by rewrite /inner trZ -scalemxAl mxtraceZ. Qed.
  Lemma inner_Zr (a : R) G (H : fac) : inner G (a *: H) = (a * inner G H)%re.
  Proof. by rewrite /inner -scalemxAr mxtraceZ. Qed.
  Lemma lin_E Sg Gk e G (he : vec) hG : lin Sg Gk e G he hG = ((\sum_i Sg i i * he i 0)%R - (\sum_i V e G i i * he i 0)%R + 2 * inner (V e G *m G)%R hG - 2 * inner hG (Sg *m Gk)%R)%re.
  Proof.
    rewrite /lin /gG inner_Zl inner_Bl (inner_sym _ hG) (inner_sym _ hG). have -> : \sum_i gE Sg e G i 0 * he i 0 = (\sum_i Sg i i * he i 0) - (\sum_i V e G i i * he i 0).
      rewrite -sumrB. apply: eq_bigr => i _. rewrite !mxE. move: (he i 0) (Sg i i) (V e G i i) => a b c. Rring.
    move: (\sum_i _) (\sum_i _) (inner _ _) (inner _ _) => a b c f. toR. lra.
  Qed.
  Lemma lin_Z Sg Gk e G (t : R) he hG : lin Sg Gk e G (t *: he) (t *: hG) = (t * lin Sg Gk e G he hG)%re.
  Proof.
    rewrite /lin inner_Zr. have -> : \sum_i gE Sg e G i 0 * (t *: he) i 0 = t * (\sum_i gE Sg e G i 0 * he i 0).
      rewrite mulr_sumr. apply: eq_bigr => i _. rewrite [(t *: he) i 0]mxE. move: (gE _ _ _ _ _) (he i 0) => a b. Rring.
    move: (\sum_i _) (inner _ _) => a b. toR. lra.
  Qed.
  Lemma diag_sub Sg e e' : \tr (Sg *m diag_mx e'^T) = (\tr (Sg *m diag_mx e^T)%R + (\sum_i Sg i i * (e' - e)%R i 0)%R)%re.
  Proof.
    have := tr_diag_sub Sg e e'. have -> : \sum_i Sg i i * (e' - e)%R i 0 = \sum_i Sg i i * (e' i 0 - e i 0) by apply: eq_bigr => i _; rewrite !mxE.
    move: (\tr _) (\tr _) (\sum_i _) => a b c. toR. move=> H. eqR. lra.
  Qed.
  Lemma sub_sum (W : 'M[R]_n) e e' : \sum_i W i i * (e' i 0 - e i 0) = \sum_i W i i * (e' - e)%R i 0.
  Proof. by apply: eq_bigr => i _; rewrite !mxE. Qed.
  (** Convexity of the surrogate with the code's gradient. *)
  Lemma surr_convex Sg Gk e G e' G' : spd (precision e G) -> spd (precision e' G') ->
    (ccp_objective Sg Gk (e, G) + lin Sg Gk e G (e' - e)%R (G' - G)%R <= ccp_objective Sg Gk (e', G'))%re /\
    ((ccp_objective Sg Gk (e', G') <= ccp_objective Sg Gk (e, G) + lin Sg Gk e G (e' - e)%R (G' - G)%R)%re -> (e', G') = (e, G)).
  Proof.
    move=> HK HK'. have [H1 H2] := lndet_grad HK HK'. rewrite sub_sum in H1 H2. rewrite !surr_E (diag_sub Sg e e') lin_E inner_Bl.
    set a := ln _ in H1 H2 *. set b := ln _ in H1 H2 *. set c := \sum_i V e G i i * _ in H1 H2 *. set p := inner (V e G *m G) _ in H1 H2 *.
    set q := \sum_i Sg i i * _. set r := \tr _. set u := inner G' _. set v := inner G _.
    split; first by move: H1; clear; move: a b c p q r u v => a b c p q r u v; toR; lra.
    move=> H3. have H4 : (b + c - 2 * p <= a)%re by move: H3; clear; move: a b c p q r u v => a b c p q r u v; toR; lra.
    by case: (H2 H4) => -> ->.
  Qed.
  (** Upper bound along a line. *)
  Lemma surr_line Sg Gk e G he hG : spd (precision e G) -> exists c t0 : R, (0 < t0)%re /\ forall t : R, (0 < t < t0)%re ->
    spd (precision (e + t *: he) (G + t *: hG)) /\
    (ccp_objective Sg Gk (e + t *: he, G + t *: hG)%R <= ccp_objective Sg Gk (e, G) + t * lin Sg Gk e G he hG + c * (t * t))%re.
  Proof.
    move=> HK. have HM := Minv_spd HK. case E : (chol (Minv e G)) => [L|]; last by move/(chol_none (proj1 HM)): E.
    have HC := chol_is_chol (proj1 HM) E. have Hu := is_chol_unit HC. case: HC => _ [_ EB].
    set H := big_matrix (e + he) (G + hG) - big_matrix e G.
    have HE t : big_matrix (e + t *: he) (G + t *: hG) = big_matrix e G + t *: H.
      rewrite /H /big_matrix opp_block_mx add_block_mx scale_block_mx add_block_mx !subrr scaler0 addr0. congr block_mx.
      - apply/matrixP => i j. rewrite !mxE. case: (i == j) => /=; rewrite ?mulr0n ?mulr1n; [move: (e j 0) (he j 0) => a b; Rring|Rring].
      - apply/matrixP => i j. rewrite !mxE. move: (G i j) (hG i j) => a b; Rring.
      - apply/matrixP => i j. rewrite !mxE. move: (G j i) (hG j i) => a b; Rring.
    have HH : sym H by rewrite /sym /H trB /big_matrix !tr_block_mx !tr_diag_mx !trmxK !trmx1.
    have HS : sym (L^T *m H *m L) by rewrite /sym !trmx_mul trmxK HH mulmxA.
    have E1 : L^T *m big_matrix e G *m L = 1%:M.
      have E2 : big_matrix e G *m (L *m L^T) = 1%:M by rewrite EB; exact: M_Minv.
      rewrite mulmxA in E2. move/mulmx1C: E2. by rewrite mulmxA.
    have Et t : L^T *m big_matrix (e + t *: he) (G + t *: hG) *m L = 1%:M + t *: (L^T *m H *m L) by rewrite HE mulmxDr mulmxDl E1 -scalemxAr -scalemxAl.
    have [c [t0 [H0 Ht]]] := lndet_lower HS. exists c, t0. split=> // t /Ht [Hs Hl]. rewrite -Et in Hs Hl.
    have HK' : spd (precision (e + t *: he) (G + t *: hG)).
      apply/big_spd. split; first by rewrite /sym /big_matrix tr_block_mx tr_diag_mx trmxK trmx1.
      move=> z Hz. have Hz' : invmx L *m z != 0.
        apply: contraNneq Hz => E0. by rewrite -[z]mul1mx -(mulmxV Hu) -mulmxA E0 mulmx0.
      have := (proj2 Hs) _ Hz'. by rewrite qf_congr mulmxA mulmxV // mul1mx.
    split=> //. have HtrS : \tr (L^T *m H *m L) = (\sum_i V e G i i * he i 0)%R - 2%re * inner (V e G *m G) hG.
      have -> : \tr (L^T *m H *m L) = \tr (Minv e G *m H) by rewrite -mulmxA mxtrace_mulC -mulmxA EB mxtrace_mulC.
      rewrite /H mulmxBr trBl !tr_MinvM // (diag_sub _ e (e + he)) [e + he - e]addrC addKr.
      have -> : inner (V e G *m G) (G + hG) = inner (V e G *m G) G + inner (V e G *m G) hG by rewrite /inner mulmxDr mxtraceD.
      move: (\tr _) (\tr _) (inner _ _) (inner _ _) (\sum_i _) => a b p q r. Rring.
    have Hd : ln (\det (L^T *m big_matrix (e + t *: he) (G + t *: hG) *m L)) = (- ln (\det (precision e G)) + ln (\det (precision (e + t *: he) (G + t *: hG))))%re.
      have -> : \det (L^T *m big_matrix (e + t *: he) (G + t *: hG) *m L) = \det (Minv e G) * \det (big_matrix (e + t *: he) (G + t *: hG)).
        rewrite -EB !det_mulmx. move: (\det _) (\det _) (\det _) => a b p. Rring.
      rewrite big_det -lndet_big // ln_mult //; exact: spd_det.
    rewrite {}Hd {}HtrS in Hl. rewrite !surr_E lin_E (diag_sub Sg e (e + t *: he)) [(e + _) - e]addrC addKr.
    have -> : \sum_i Sg i i * (t *: he) i 0 = t * (\sum_i Sg i i * he i 0).
      rewrite mulr_sumr. apply: eq_bigr => i _. rewrite [(t *: he) i 0]mxE. move: (he i 0) (Sg i i) => a b. Rring.
    have -> : inner (G + t *: hG) (Sg *m Gk) = inner G (Sg *m Gk) + t * inner hG (Sg *m Gk) by rewrite /inner trD mulmxDl mxtraceD trZ -scalemxAl mxtraceZ.
    move: Hl. move: (ln _) (ln _) (\tr _) (inner G _) (inner hG _) (inner _ _) (\sum_i _) (\sum_i _) => a b p q r u v w. toR. lra.
  Qed.
  Lemma inner_self_ge0 G : (0 <= inner G G)%re.
  Proof.
    rewrite /inner /mxtrace. apply: sumR_ge0 => a _. rewrite mxE. apply: sumR_ge0 => i _. rewrite mxE. exact: Rle_0_sqr.
  Qed.
  Lemma inner_self_eq0 G : (inner G G <= 0)%re -> G = 0.
  Proof.
    move=> H. apply/matrixP => i a. rewrite mxE. have H1 : (\sum_a (\sum_i G i a * G i a) <= 0)%re.
      move: H. rewrite /inner /mxtrace. by under eq_bigr => b _ do (rewrite mxE; under eq_bigr => j _ do rewrite mxE).
    have H2 := CcpOpt.sumR_eq0 (fun a => sumR_ge0 (fun i _ => Rle_0_sqr (G i a))) H1 a.
    have H3 := CcpOpt.sumR_eq0 (fun i => Rle_0_sqr (G i a)) (Req_le _ _ H2) i. exact: Rsqr_0_uniq H3.
  Qed.
  Lemma min_iff Sg Gk e G : spd (precision e G) -> minimiser (ccp_objective Sg Gk) (@ccp_domain n k) (e, G) <-> (gE Sg e G = 0 /\ gG Sg Gk e G = 0).
  Proof.
    move=> HK. split.
    - move=> [_ Hm]. set he := - gE Sg e G. set hG := - gG Sg Gk e G. have [c [t0 [H0 Ht]]] := surr_line Sg Gk he hG HK.
      set N := (\sum_i gE Sg e G i 0 * gE Sg e G i 0 + inner (gG Sg Gk e G) (gG Sg Gk e G))%R.
      have EN : lin Sg Gk e G he hG = (- N)%re.
        rewrite /lin /he /hG. have -> : \sum_i gE Sg e G i 0 * (- gE Sg e G) i 0 = - \sum_i gE Sg e G i 0 * gE Sg e G i 0 by rewrite -sumrN; apply: eq_bigr => i _; rewrite [(- gE Sg e G) i 0]mxE mulrN.
        have -> : inner (gG Sg Gk e G) (- gG Sg Gk e G) = - inner (gG Sg Gk e G) (gG Sg Gk e G) by rewrite /inner mulmxN raddfN.
        by rewrite /N; move: (\sum_i _) (inner _ _) => a b; Rring.
      have H1 : (0 <= \sum_i gE Sg e G i ord0 * gE Sg e G i ord0)%re by apply: sumR_ge0 => i _; exact: Rle_0_sqr.
      have H2 := inner_self_ge0 (gG Sg Gk e G).
      have HN : (N <= 0)%re.
        have Hc t : (0 < t < t0)%re -> (N <= c * t)%re.
          move=> Hti. have [Ha Hb] := Ht t Hti. have := Hm (e + t *: he, G + t *: hG) (proj2 (dom_spd (e + t *: he, G + t *: hG)) Ha). rewrite EN in Hb. case: Hti => Hti _.
          move: Hb. move: (ccp_objective _ _ _) (ccp_objective _ _ _) => a b. move=> H3 H4. apply: (Rmult_le_reg_l t) => //. lra.
        exact: small_neg H0 Hc.
      have HN' : ((\sum_i gE Sg e G i ord0 * gE Sg e G i ord0)%R + inner (gG Sg Gk e G) (gG Sg Gk e G) <= 0)%re := HN.
      split.
      + apply/colP => i. rewrite [RHS]mxE. apply: Rsqr_0_uniq. apply: (CcpOpt.sumR_eq0 (fun i => Rle_0_sqr (gE Sg e G i ord0)) _ i).
        move: HN' H2. rewrite /Rsqr. move: (inner _ _) => a. move: (\sum_i _)%R => b; toR; lra.
      + apply: inner_self_eq0. move: HN' H1. move: (inner _ _) (\sum_i _)%R => a b. toR. lra.
    - move=> [E1 E2]. split; first exact/dom_spd. move=> [e' G'] /dom_spd /= HK'. have [H _] := surr_convex Sg Gk HK HK'.
      move: H. rewrite /lin E1 E2. have -> : \sum_i (0 : vec) i 0 * (e' - e) i 0 = R0 by rewrite big1 // => i _; rewrite mxE mul0r.
      have -> : inner (0 : fac) (G' - G) = R0 by rewrite /inner trmx0 mul0mx mxtrace0. lra.
  Qed.
  Lemma min_unique Sg Gk x y : minimiser (ccp_objective Sg Gk) (@ccp_domain n k) x -> minimiser (ccp_objective Sg Gk) (@ccp_domain n k) y -> x = y.
  Proof.
    case: x y => [e G] [e' G'] Hx Hy. have HK := proj1 (dom_spd _) (proj1 Hx). have HK' := proj1 (dom_spd _) (proj1 Hy). simpl in HK, HK'.
    have [E1 E2] := proj1 (min_iff Sg Gk HK) Hx. have [_ H] := surr_convex Sg Gk HK HK'. symmetry. apply: H.
    have Hle := proj2 Hy _ (proj1 Hx).
    rewrite /lin E1 E2. have -> : \sum_i (0 : vec) i 0 * (e' - e) i 0 = R0 by rewrite big1 // => i _; rewrite mxE mul0r.
    have -> : inner (0 : fac) (G' - G) = R0 by rewrite /inner trmx0 mul0mx mxtrace0. lra.
  Qed.

  (** ** prox_step *)
  Lemma prox_ok Sg Gk e G : spd (precision e G) -> prox_step Sg Gk (e, G) = Ok (e - gE Sg e G, G - gG Sg Gk e G).
  Proof.
    move=> HK. rewrite /prox_step /= cf_ok //= ge_ok //= /grad_G !scale1r. congr (Ok (_, _)).
    - congr (_ - _). apply/colP => i. rewrite !mxE. exact: addrC.
    - by rewrite /gG scalerBr.
  Qed.
  Lemma prox_fixed Sg Gk x : ccp_domain x -> prox_step Sg Gk x = Ok x <-> minimiser (ccp_objective Sg Gk) (@ccp_domain n k) x.
  Proof.
    case: x => e G /dom_spd /= HK. rewrite min_iff // prox_ok //. split.
    - case=> E1 E2. split.
      + move/eqP: E1. by rewrite addrC -subr_eq0 addrK oppr_eq0 => /eqP.
      + move/eqP: E2. by rewrite addrC -subr_eq0 addrK oppr_eq0 => /eqP.
    - move=> [-> ->]. by rewrite !subr0.
  Qed.

  (** ** iterate *)
  Lemma dom_valid (s : state n k) : ccp_domain (s_e s, s_G s) <-> valid s.
  Proof. exact: dom_spd. Qed.
  Lemma iterate_inv (solve : csolver n k) s s' : iterate solve s = Ok s' -> exists x, s_prob s = true /\ solve (ccp_objective (s_Sigma s) (s_G s)) (@ccp_domain n k) = CSolved x /\ s' = mkState x.1 x.2 (s_Sigma s) true.
  Proof.
    rewrite /iterate. case Hp: (s_prob s) => //. case: (solve _ _) => [x||] //=; case: (objective s) => //= o.
    case=> <-. by exists x.
  Qed.
  Lemma iterate_ok (solve : csolver n k) s x : s_prob s = true -> spd (s_Sigma s) -> valid s -> solve (ccp_objective (s_Sigma s) (s_G s)) (@ccp_domain n k) = CSolved x ->
    iterate solve s = Ok (mkState x.1 x.2 (s_Sigma s) true).
  Proof. move=> Hp HS Hv E. by rewrite /iterate Hp E (objective_ok HS Hv). Qed.
  Lemma iterate_descent (solve : csolver n k) s s' : honest solve -> spd (s_Sigma s) -> valid s -> iterate solve s = Ok s' ->
    valid s' /\ s_Sigma s' = s_Sigma s /\ s_prob s' = true /\ exists o o' : R, objective s = Ok o /\ objective s' = Ok o' /\
      (o' + inner (s_G s' - s_G s)%R (s_Sigma s *m (s_G s' - s_G s))%R <= o)%re.
  Proof.
    move=> Hh HS Hv /iterate_inv [[e G] [_ [/Hh [Hd Hm] ->]]]. have Hv' := proj1 (dom_spd _) Hd. split; first exact: Hv'. do 2 split=> //.
    exists (dev2 (s_Sigma s) (s_e s) (s_G s)), (dev2 (s_Sigma s) e G). split; first exact: objective_ok. split; first exact: (@objective_ok _ _ (mkState e G _ true)).
    simpl. have := Hm _ (proj2 (dom_valid s) Hv). rewrite (surr_gap (s_G s) e G (proj1 HS)) (surr_gap (s_G s) (s_e s) (s_G s) (proj1 HS)) subrr mulmx0.
    have -> : inner (0 : fac) 0 = R0 by rewrite /inner mulmx0 mxtrace0. move: (dev2 _ _ _) (dev2 _ _ _) (inner _ _) (inner _ _) => a b c d. toR. lra.
  Qed.
  Lemma steps_descent (solve : csolver n k) m s s' : honest solve -> spd (s_Sigma s) -> valid s -> ccp_steps solve m s = Ok s' ->
    valid s' /\ s_Sigma s' = s_Sigma s /\ exists o o' : R, objective s = Ok o /\ objective s' = Ok o' /\ (o' <= o)%re.
  Proof.
    move=> Hh HS Hv. elim: m s' => [|m IH] s' /=.
      case=> <-. do 2 split=> //. exists (dev2 (s_Sigma s) (s_e s) (s_G s)), (dev2 (s_Sigma s) (s_e s) (s_G s)). have E := objective_ok HS Hv. do 2 split=> //. exact: Rle_refl.
    case E: (ccp_steps solve m s) => [s1|] //= E1. have [Hv1 [ES1 [o [o1 [Eo [Eo1 Hle]]]]]] := IH _ E.
    have HS1 : spd (s_Sigma s1) by rewrite ES1. have [Hv' [ES' [_ [o1' [o' [Eo1' [Eo' Hd]]]]]]] := iterate_descent Hh HS1 Hv1 E1.
    split=> //. split; first by rewrite ES' ES1. exists o, o'. do 2 split=> //. have := inner_ge0 (s_G s' - s_G s1) (spd_psd HS1).
    move: Eo1'. rewrite Eo1 => [[Eq]]. rewrite -Eq in Hd. lra.
  Qed.
  Lemma objective_loglik (s : state n k) (o : R) : spd (s_Sigma s) -> valid s -> objective s = Ok o -> o = (- 2 * loglik (s_Sigma s) (invmx (precision (s_e s) (s_G s))))%re.
  Proof. move=> HS Hv. rewrite objective_ok // => [[<-]]. exact: dev2_loglik. Qed.
  Lemma build_valid (s : state n k) : valid s -> exists F d, build s = Ok (F, d) /\ pos_vec d /\ factor_model F d = invmx (precision (s_e s) (s_G s)).
  Proof. move=> Hv. have [F [E1 [E2 E3]]] := build_ok Hv. by exists F, (\col_i rcp (s_e s i 0)). Qed.
  Lemma ccp_run (solve : csolver n k) m Sg F0 d0 s0 s : honest solve -> spd Sg -> pos_vec d0 -> new_state Sg F0 d0 = Ok s0 -> ccp_steps solve m (construct_problem s0) = Ok s ->
    exists F d, build s = Ok (F, d) /\ pos_vec d /\ spd (factor_model F d) /\ (loglik Sg (factor_model F0 d0) <= loglik Sg (factor_model F d))%re.
  Proof.
    move=> Hh HS Hd E0 E. have [G [E0' HK]] := new_ok Sg F0 Hd. move: E0. rewrite E0' => [[Es0]].
    have Hv0 : valid (construct_problem s0) by rewrite -Es0 /valid /= HK; exact: K_spd_of.
    have HS0 : spd (s_Sigma (construct_problem s0)) by rewrite -Es0.
    have [Hv [ES [o0 [o [Eo0 [Eo Hle]]]]]] := steps_descent Hh HS0 Hv0 E. have HSs : spd (s_Sigma s) by rewrite ES.
    have [F [d [Eb [Hp Hf]]]] := build_valid Hv. exists F, d. do 2 split=> //. split; first by apply: fm_spd.
    have E1 := objective_loglik HS0 Hv0 Eo0. have E2 := objective_loglik HSs Hv Eo. move: E1 E2. rewrite ES -Hf -Es0 /= HK invmxK. move: (loglik _ _) (loglik _ _) => a b. lra.
  Qed.
  (** The objective is bounded below. *)
  Lemma objective_lower (s : state n k) (o : R) : spd (s_Sigma s) -> valid s -> objective s = Ok o -> (ln (\det (s_Sigma s)) + INR n <= o)%re.
  Proof.
    move=> HS Hv. rewrite objective_ok // => [[<-]]. have := logdet_tr2 HS Hv. rewrite /dev2. move: (ln _) (ln _) (\tr _) => a b c. lra.
  Qed.

  (** ** Fixed points *)
  Lemma new_fac Sg F d s : pos_vec d -> new_state Sg F d = Ok s -> exists G (L : 'M[R]_k), s = mkState (\col_i rcp (d i 0)) G Sg false /\
    precision (\col_i rcp (d i 0)) G = invmx (factor_model F d) /\ invmx (factor_model F d) *m F = G *m L^T /\ L \in unitmx.
  Proof.
    move=> Hd. rewrite /new_state inverse_ok //= rt_Di mulmxA addrC -/(Wm F d) (inv_ok (W_spd F Hd)) /=.
    have [L [E1 E2]] := chol_ok (G_spd F Hd). rewrite -/(Gm F d) E1 /= => [[<-]]. eexists. exists L. split; first by reflexivity. split; [|split].
    - rewrite /precision rt_Di Di_rcp // V_inv //. congr (_ - _). by rewrite !trmx_mul Di_sym /Lm -E2 !mulmxA.
    - have HV : sym (invmx (factor_model F d)) by apply: (proj1 (spd_inv (fm_spd F Hd))).
      have -> : invmx (factor_model F d) *m F = (Lm F d)^T by rewrite (LE F Hd) [RHS]trmx_mul trmxK HV.
      rewrite /Lm !trmx_mul trmxK Di_sym -E2 rt_Di [(L *m L^T)^T]trmx_mul trmxK !mulmxA. by [].
    - have : L *m L^T \in unitmx by rewrite E2; exact: (spd_unit (G_spd F Hd)). by rewrite unitmx_mul => /andP [].
  Qed.
  Lemma grad_zero_iff Sg F d s : pos_vec d -> new_state Sg F d = Ok s ->
    (gE Sg (s_e s) (s_G s) = 0 /\ gG Sg (s_G s) (s_e s) (s_G s) = 0) <->
    (Sg *m invmx (factor_model F d) *m F = F /\ forall i, factor_model F d i i = Sg i i).
  Proof.
    move=> Hd /(new_fac Hd) [G [L [-> [HK [HG HL]]]]]. rewrite /gE /gG /= HK invmxK -mulmxA HG. have HV := V_unit F Hd.
    have HF : F = factor_model F d *m G *m L^T by rewrite -mulmxA -HG mulmxA mulmxV // mul1mx.
    split.
    - move=> [E1 E2]. split.
      + have {}E2 : factor_model F d *m G = Sg *m G.
          apply/eqP. rewrite -subr_eq0. move/eqP: E2. rewrite scaler_eq0 => /orP [/eqP H2|//]. have : (2 = 0)%re by exact: H2. lra.
        by rewrite mulmxA -E2 -HF.
      + move=> i. move/colP/(_ i): E1. rewrite !mxE => /eqP. rewrite subr_eq0 => /eqP. by move=> ->.
    - move=> [E1 E2]. split.
      + apply/colP => i. rewrite [LHS]mxE E2 subrr mxE. by [].
      + have -> : factor_model F d *m G = Sg *m G; last by rewrite subrr scaler0.
        have HLt : L^T \in unitmx by rewrite unitmx_tr. rewrite -[LHS]mulmx1 -[RHS]mulmx1 -(mulmxV HLt) !mulmxA -HF. rewrite mulmxA in E1. by rewrite E1.
  Qed.
  Lemma keep_iff (solve : csolver n k) Sg F d s s' : honest solve -> spd Sg -> pos_vec d -> new_state Sg F d = Ok s -> iterate solve (construct_problem s) = Ok s' ->
    (s_e s', s_G s') = (s_e s, s_G s) <-> (Sg *m invmx (factor_model F d) *m F = F /\ forall i, factor_model F d i i = Sg i i).
  Proof.
    move=> Hh HS Hd E /iterate_inv [x [_ [/Hh Hm ->]]]. rewrite -(grad_zero_iff Hd E).
    have [G [L [Es [HK _]]]] := new_fac Hd E. have HKs : spd (precision (s_e s) (s_G s)) by rewrite Es /= HK; exact: K_spd_of.
    have ESs : s_Sigma s = Sg by rewrite Es. rewrite /= ESs in Hm. rewrite -(min_iff Sg (s_G s) HKs) /=. case: x Hm => e1 G1 Hm /=. split=> [<- //|H]. exact: min_unique Hm H.
  Qed.
End Ccp.
