(** * Expectation-maximisation does not decrease the likelihood. *)
From Coq Require Import Reals Lra ZArith.
Set Warnings "-notation-overridden,-ambiguous-paths".
From mathcomp Require Import all_ssreflect all_algebra.
From Verif Require Import RStruct MatR Py Num Spectral Regularization SpecReg RegProps RegOpt EmFacts EmProps.
Set Implicit Arguments.
Unset Strict Implicit.
Unset Printing Implicit Defensive.
Import GRing.Theory.
Local Open Scope ring_scope.
Delimit Scope R_scope with re.

Lemma oppE m p (A : 'M[R]_(m, p)) i j : (- A) i j = - A i j.
Proof. by rewrite mxE. Qed.
Ltac hide_entries := repeat match goal with
  | |- context [@fun_of_matrix ?T ?m ?p ?A ?i ?j] => let x := fresh "x" in move: (@fun_of_matrix T m p A i j) => x end.
Ltac mx_abel := apply/matrixP => ? ?; rewrite ?(addE, subE, oppE); hide_entries; Rring.

Lemma ln_lt_sub1 (x : R) : (0 < x)%re -> x <> R1 -> (ln x < x - 1)%re.
Proof.
move=> H Hx. have Hl : ln x <> R0 by move=> E; apply: Hx; rewrite -(exp_ln x H) E exp_0.
have := exp_ineq1 _ Hl. rewrite exp_ln //. lra.
Qed.
Lemma scalar_min (q a : R) : (0 < q)%re -> (0 < a)%re -> (ln q + 1 <= ln a + q / a)%re /\ ((ln q + 1 = ln a + q / a)%re -> a = q).
Proof.
move=> Hq Ha. have Hx : (0 < q / a)%re by exact: Rdiv_lt_0_compat.
have E : ln (q / a)%re = (ln q - ln a)%re by rewrite ln_mult ?ln_Rinv //; [exact: Rinv_0_lt_compat].
have := ln_le_sub1 Hx. rewrite E => H1. split; first lra. move=> H2.
case: (Req_dec (q / a)%re 1) => H3.
  have -> : q = (q / a * a)%re by field; lra. rewrite H3. lra.
have := ln_lt_sub1 Hx H3. rewrite E. lra.
Qed.

Section Em.
  Context (n k : nat).
  Implicit Types (F : 'M[R]_(n, k)) (d : 'cV[R]_n) (Sg : 'M[R]_n).

  Lemma WL F d : pos_vec d -> Wm F d *m Lm F d = F^T *m Di d.
  Proof.
    move=> Hd. rewrite /Lm !mulmxA. have -> : Wm F d *m Gm F d = 1%:M by apply: mulmx1C; exact: GW.
    by rewrite mul1mx.
  Qed.
  (** Completing the square in the factors. *)
  Lemma square F d (L : 'M[R]_(k, n)) : pos_vec d ->
    (1%:M - F *m L)^T *m Di d *m (1%:M - F *m L) + L^T *m L =
    invmx (factor_model F d) + (L - Lm F d)^T *m Wm F d *m (L - Lm F d).
  Proof.
    move=> Hd. rewrite V_inv //. have := WL F Hd. have := proj1 (W_spd F Hd).
    have EW : Wm F d = F^T *m Di d *m F + 1%:M by []. have Hs := Di_sym d.
    move: (Wm F d) (Lm F d) EW => W L' EW HW E1. move: (Di d) Hs EW E1 => D Hs EW E1.
    have E2 : L'^T *m W = D *m F by have := congr1 trmx E1; rewrite trmx_mul HW trmx_mul trmxK Hs.
    have -> : (L - L')^T *m W *m (L - L') = L^T *m W *m L - L^T *m (F^T *m D) - D *m F *m L + D *m F *m L'.
      rewrite trB mulmxBl mulmxBl !mulmxBr E2 -[L^T *m W *m L']mulmxA E1. by rewrite opprB addrA addrAC.
    rewrite EW trB trmx1 trmx_mul !mulmxBl !mulmxBr !mul1mx !mulmx1 mulmxDr mulmxDl mulmx1 !mulmxA.
    mx_abel.
  Qed.

  (** tr(D A S A^T) row by row. *)
  Lemma tr_rows (D : 'rV[R]_n) (p : nat) (A : 'M[R]_(n, p)) (S : 'M[R]_p) :
    \tr (diag_mx D *m A *m S *m A^T) = \sum_i D 0 i * qf S (row i A)^T.
  Proof.
    rewrite -!mulmxA /mxtrace. apply: eq_bigr => i _. rewrite mul_diag_mx [LHS]mxE. congr (_ * _).
    rewrite /qf trmxK tr_row mulmxA -row_mul [RHS]mxE [LHS]mxE. apply: eq_bigr => a _. by rewrite !mxE.
  Qed.

  (** What the maximisation step minimises. *)
  Definition Qc Sg F d F' d' : R := \sum_i (ln (d' i 0) + resid Sg F d i (row i F')^T * rcp (d' i 0))%R.

  Lemma resid_sum Sg F d F' d' : \sum_i resid Sg F d i (row i F')^T * rcp (d' i 0) =
    \tr (Di d' *m (1%:M - F' *m Lm F d) *m Sg *m (1%:M - F' *m Lm F d)^T) + \tr (Di d' *m F' *m Gm F d *m F'^T).
  Proof.
    rewrite !tr_rows -big_split. apply: eq_bigr => i _ /=. rewrite -mulrDr mulrC [(\row__ _) _ _]mxE. congr (_ * _).
    rewrite /resid. congr (qf _ _ + _). rewrite linearB /= trB. congr (_ - _).
      by apply/colP => j; rewrite !mxE andbT eq_sym.
    by rewrite row_mul [RHS]trmx_mul.
  Qed.
  Lemma complete Sg F d F' d' : pos_vec d -> pos_vec d' ->
    \sum_i resid Sg F d i (row i F')^T * rcp (d' i 0) + \tr (Css Sg F d) =
    \tr (invmx (factor_model F' d') *m Sg) + \tr (Wm F' d' *m ((Lm F d - Lm F' d') *m Sg *m (Lm F d - Lm F' d')^T))
    + \tr (Wm F' d' *m Gm F d).
  Proof.
    move=> Hd Hd'. rewrite resid_sum /Css mxtraceD.
    have EG : \tr (Di d' *m F' *m Gm F d *m F'^T) + \tr (Gm F d) = \tr (Wm F' d' *m Gm F d).
      rewrite /Wm mulmxDl mul1mx mxtraceD. congr (_ + _). by rewrite mxtrace_mulC !mulmxA.
    have Hsq := square F' (Lm F d) Hd'.
    move: EG Hsq. move: (Lm F d) (Gm F d) (Lm F' d') (Wm F' d') (invmx (factor_model F' d')) (Di d') => L G L' W V D EG Hsq.
    rewrite -EG.
    have E1 : \tr (D *m (1%:M - F' *m L) *m Sg *m (1%:M - F' *m L)^T) = \tr ((1%:M - F' *m L)^T *m D *m (1%:M - F' *m L) *m Sg).
      by rewrite mxtrace_mulC !mulmxA.
    have E2 : \tr (L *m Sg *m L^T) = \tr (L^T *m L *m Sg) by rewrite mxtrace_mulC !mulmxA.
    have E3 : \tr (W *m ((L - L') *m Sg *m (L - L')^T)) = \tr ((L - L')^T *m W *m (L - L') *m Sg).
      by rewrite !mulmxA mxtrace_mulC !mulmxA.
    have E4 : \tr ((1%:M - F' *m L)^T *m D *m (1%:M - F' *m L) *m Sg) + \tr (L^T *m L *m Sg) =
      \tr (V *m Sg) + \tr ((L - L')^T *m W *m (L - L') *m Sg).
      by rewrite -!mxtraceD -!mulmxDl Hsq.
    rewrite E1 E2 E3. move: E4. move: (\tr _) (\tr _) (\tr _) (\tr _) (\tr _) (\tr _) => a b c e f g.
    toR => E. eqR. lra.
  Qed.
  Lemma QcE Sg F d F' d' : Qc Sg F d F' d' = \sum_i ln (d' i 0) + \sum_i resid Sg F d i (row i F')^T * rcp (d' i 0).
  Proof. by rewrite /Qc big_split. Qed.

  (** -2 log-likelihood is at most Qc plus a constant, with equality at the current parameters. *)
  Definition dev Sg F d : R := (ln (\det (factor_model F d)) + \tr (invmx (factor_model F d) *m Sg))%re.
  Definition const Sg F d : R := (\tr (Css Sg F d) + ln (\det (Wm F d)) - INR k)%re.
  Lemma lndetG F d : pos_vec d -> ln (\det (Gm F d)) = (- ln (\det (Wm F d)))%re.
  Proof.
    move=> Hd. have HW := spd_det (W_spd F Hd). rewrite /Gm det_inv RinvE; last exact: Rgt_not_eq. exact: ln_Rinv.
  Qed.
  Lemma dev_le Sg F d F' d' : psd Sg -> pos_vec d -> pos_vec d' -> (dev Sg F' d' <= Qc Sg F d F' d' + const Sg F d)%re.
  Proof.
    move=> HS Hd Hd'. have E := complete Sg F F' Hd Hd'. rewrite /dev /const V_det // QcE.
    have H1 := logdet_tr2 (W_spd F' Hd') (G_spd F Hd). rewrite lndetG // in H1.
    have H2 : (0 <= \tr (Wm F' d' *m ((Lm F d - Lm F' d') *m Sg *m (Lm F d - Lm F' d')^T)))%re.
      apply: tr_psd2; first exact: spd_psd (W_spd F' Hd'). split; first exact: sandwich_sym (proj1 HS).
      move=> x. rewrite -{1}[Lm F d - _]trmxK qf_congr. by case: HS.
    move: E H1 H2. move: (\tr (Css _ _ _)) => a. move: (\tr (invmx _ *m _)) => b. move: (\tr (Wm F' d' *m Gm F d)) => c. move: (\tr _) => e.
    move: (\det (Wm F d)) (\det (Wm F' d')) => g h. hide_sums. toR. lra.
  Qed.
  Lemma dev_eq Sg F d : pos_vec d -> dev Sg F d = (Qc Sg F d F d + const Sg F d)%re.
  Proof.
    move=> Hd. have E := complete Sg F F Hd Hd. rewrite /dev /const V_det // QcE.
    have HW : Wm F d *m Gm F d = 1%:M by apply: mulmx1C; exact: GW.
    have H0 : \tr (Wm F d *m ((Lm F d - Lm F d) *m Sg *m (Lm F d - Lm F d)^T)) = 0 by rewrite subrr !mul0mx mulmx0 mxtrace0.
    rewrite H0 HW in E. have H1 : \tr (1%:M : 'M[R]_k) = INR k by rewrite mxtrace_scalar -sum1 sumr_const card_ord.
    rewrite H1 in E. move: E. move: (\tr (Css _ _ _)) (\tr (invmx _ *m _)) (\det (Wm F d)) => a b g. hide_sums. toR. lra.
  Qed.

  (** The maximisation step minimises Qc, row by row. *)
  Lemma resid_min Sg F d i f : psd Sg -> pos_vec d ->
    resid Sg F d i f = resid Sg F d i (row i (Cxs Sg F d *m invmx (Css Sg F d)))^T +
      qf (Css Sg F d) (f - (row i (Cxs Sg F d *m invmx (Css Sg F d)))^T).
  Proof.
    move=> HS Hd. have Hc := Css_spd F HS Hd. rewrite !(residE _ _ _ _ (proj1 HS)) (qfN _ _ (proj1 Hc)).
    set g := (row i _)^T. have Eg : Css Sg F d *m g = (row i (Cxs Sg F d))^T.
      rewrite /g row_mul trmx_mul (sym_inv (proj1 Hc)) mulmxA mulmxV ?mul1mx //. exact: spd_unit Hc.
    clearbody g.
    have E1 : (f^T *m Css Sg F d *m g) 0 0 = \sum_a Cxs Sg F d i a * f a 0.
      rewrite -mulmxA Eg mxE. apply: eq_bigr => a _. by rewrite !mxE mulrC.
    have E2 : \sum_a Cxs Sg F d i a * g a 0 = qf (Css Sg F d) g.
      apply/esym.
      rewrite /qf -mulmxA Eg mxE. apply: eq_bigr => a _. by rewrite !mxE mulrC.
    rewrite E1 E2. move: (qf _ f) (qf _ g) => x y. hide_sums. move: (Sg i i) => s. Rring.
  Qed.
  Lemma Qc_min Sg F d F' d' Fo dz : spd Sg -> pos_vec d -> pos_vec dz -> F' = Cxs Sg F d *m invmx (Css Sg F d) ->
    (forall i, d' i 0 = resid Sg F d i (row i F')^T) ->
    (Qc Sg F d F' d' <= Qc Sg F d Fo dz)%re /\ (Qc Sg F d F' d' = Qc Sg F d Fo dz -> F' = Fo /\ d' = dz).
  Proof.
    move=> HS Hd Ho EF Ed. have Hd' : pos_vec d' by move=> i; rewrite Ed; exact: resid_pos.
    have Hi : forall i, (ln (d' i ord0) + resid Sg F d i (row i F')^T * rcp (d' i ord0) <=
                         ln (dz i ord0) + resid Sg F d i (row i Fo)^T * rcp (dz i ord0))%re /\
       ((ln (d' i ord0) + resid Sg F d i (row i F')^T * rcp (d' i ord0) =
         ln (dz i ord0) + resid Sg F d i (row i Fo)^T * rcp (dz i ord0))%re -> row i F' = row i Fo /\ d' i 0 = dz i 0).
      move=> i. have := resid_min F i (row i Fo)^T (spd_psd HS) Hd. rewrite -EF -Ed.
      have Hc := Css_spd F (spd_psd HS) Hd.
      have Hq := proj2 (spd_psd Hc) ((row i Fo)^T - (row i F')^T).
      have Hq0 : qf (Css Sg F d) ((row i Fo)^T - (row i F')^T) = 0 -> row i F' = row i Fo.
        move=> E. case: (eqVneq ((row i Fo)^T - (row i F')^T) 0) => [/eqP|Hne].
          by rewrite subr_eq0 => /eqP /(congr1 trmx); rewrite !trmxK.
        have := proj2 Hc _ Hne. rewrite E => H. by case: (Rlt_irrefl _ H).
      move: (qf _ _) Hq Hq0 => x Hx Hx0 ->. have Hdi := Hd' i. have Hoi := Ho i.
      change (Rlt R0 (dz i ord0)) in Hoi. change (Rlt R0 (d' i ord0)) in Hdi.
      have [H1 H2] := scalar_min Hdi Hoi.
      have E1 : (d' i ord0 * rcp (d' i ord0) = 1)%re by exact: rcp_l.
      change (d' i 0) with (d' i ord0). change (dz i 0) with (dz i ord0).
      move: (d' i ord0) (dz i ord0) Hdi Hoi H1 H2 E1 => p q Hp Hq H1 H2 E1. rewrite E1.
      have Hrc : (0 < rcp q)%re by rewrite /rcp; apply: Rdiv_lt_0_compat; lra.
      have Edv : (p / q = p * rcp q)%re by rewrite /rcp; field; lra.
      rewrite Edv in H1 H2. have Hxr : (0 <= x * rcp q)%re by apply: Rmult_le_pos; lra.
      change ((p + x)%R * rcp q)%re with ((p + x) * rcp q)%re.
      split; first nra. move=> E. have E0 : (x * rcp q = 0)%re by nra.
      split; last by symmetry; apply: H2; nra.
      apply: Hx0. case: (Rmult_integral _ _ E0) => // Ez. lra.
    split; first by apply: sumR_le => i _; exact: (proj1 (Hi i)).
    move=> E. have E0 : \sum_i ((ln (dz i 0) + resid Sg F d i (row i Fo)^T * rcp (dz i 0)) - (ln (d' i 0) + resid Sg F d i (row i F')^T * rcp (d' i 0))) = 0.
      rewrite sumrB. move: E. rewrite /Qc => ->. exact: subrr.
    have E1 : forall i, row i F' = row i Fo /\ d' i 0 = dz i 0.
      move=> i. apply: (proj2 (Hi i)).
      have H0 : forall j, Rle R0 ((ln (dz j 0) + resid Sg F d j (row j Fo)^T * rcp (dz j 0)) - (ln (d' j 0) + resid Sg F d j (row j F')^T * rcp (d' j 0)))%R.
        move=> j. apply: Rge_le. apply: Rge_minus. apply: Rle_ge. exact: (proj1 (Hi j)).
      have H := sumR_eq0 H0 E0 i. apply: esym. exact: Rminus_diag_uniq.
    split; first by apply/row_matrixP => i; exact: (proj1 (E1 i)).
    apply/colP => i. exact: (proj2 (E1 i)).
  Qed.

  Lemma em_step_better Sg F d F' d' : spd Sg -> pos_vec d -> em_step Sg (F, d) = Ok (F', d') ->
    (dev Sg F' d' <= dev Sg F d)%re /\ (dev Sg F' d' = dev Sg F d -> (F', d') = (F, d)).
  Proof.
    move=> HS Hd. case: (em_step_ok F HS Hd) => F1 [d1 [-> [Hp [E1 E2]]]] [<- <-].
    have H1 := dev_le F F1 (spd_psd HS) Hd Hp. have H2 := dev_eq Sg F Hd. have [H3 H4] := Qc_min F HS Hd Hd E1 E2.
    split; first lra. move=> E. have [-> ->] : F1 = F /\ d1 = d by apply: H4; apply: Rle_antisym => //; lra.
    by [].
  Qed.

  Lemma loglik_dev Sg F d : loglik Sg (factor_model F d) = (- / 2 * dev Sg F d)%re.
  Proof. by []. Qed.

  (** All iterations. *)
  Lemma em_iter_ok Sg m F d : spd Sg -> pos_vec d -> exists F' d', em_iter m Sg (F, d) = Ok (F', d') /\ pos_vec d' /\
    (dev Sg F' d' <= dev Sg F d)%re /\ (dev Sg F' d' = dev Sg F d -> (F', d') = (F, d)).
  Proof.
    move=> HS. elim: m F d => [|m IH] F d Hd /=; first by exists F, d; do 2 split=> //; split=> //; right.
    case: (em_step_ok F HS Hd) => F1 [d1 [E [Hp _]]]. rewrite E /=. case: (em_step_better HS Hd E) => H1 H2.
    case: (IH F1 d1 Hp) => F2 [d2 [-> [Hp2 [H3 H4]]]]. exists F2, d2. split=> //. split=> //. split; first lra.
    move=> E2. have E1 : dev Sg F1 d1 = dev Sg F d by apply: Rle_antisym; lra.
    rewrite H4; [exact: H2|lra].
  Qed.

  Lemma row_sum1 F i : \sum_a F i a * (row i F)^T a 0 = \sum_a F i a * F i a.
  Proof. by apply: eq_bigr => a _; rewrite !mxE. Qed.
  Lemma row_sum2 F i : \sum_a (row i F)^T a 0 * (row i F)^T a 0 = \sum_a F i a * F i a.
  Proof. by apply: eq_bigr => a _; rewrite !mxE. Qed.
  (** Exact factor models. *)
  Lemma em_step_fixed F d : pos_vec d -> em_step (factor_model F d) (F, d) = Ok (F, d).
  Proof.
    move=> Hd. have HV := fm_spd F Hd. case: (em_step_ok F HV Hd) => F1 [d1 [-> [_ [E1 E2]]]].
    have EC : Cxs (factor_model F d) F d = F.
      have := congr1 trmx (LV F Hd). rewrite trmxK [LHS]trmx_mul (fm_sym F d). by [].
    have ES : Css (factor_model F d) F d = 1%:M.
      rewrite /Css LV //. have := congr1 trmx (LF F Hd). rewrite [LHS]trmx_mul trB trmx1 (proj1 (G_spd F Hd)) => ->. by rewrite subrK.
    rewrite EC ES invmx1 mulmx1 in E1. subst F1. congr (Ok (_, _)). apply/colP => i. rewrite E2 (residE _ _ _ _ (proj1 HV)) EC ES.
    rewrite qf1 nsqE fm_entry eqxx mulr1n. rewrite row_sum1 row_sum2.
    move: (d i 0) => x. hide_sums. Rring.
  Qed.
  Lemma em_iter_fixed Sg m F d : em_step Sg (F, d) = Ok (F, d) -> em_iter m Sg (F, d) = Ok (F, d).
  Proof. move=> H. elim: m => [//|m IH]. by rewrite /= H. Qed.

  (** Fixed points are the solutions of the likelihood equations. *)
  Lemma fixed_iff Sg F d : spd Sg -> pos_vec d ->
    em_step Sg (F, d) = Ok (F, d) <->
    (Sg *m invmx (factor_model F d) *m F = F /\ forall i, factor_model F d i i = Sg i i).
  Proof.
    move=> HS Hd. case: (em_step_ok F HS Hd) => F1 [d1 [-> [_ [E1 E2]]]].
    have Hc := Css_spd F (spd_psd HS) Hd. have Hcu := spd_unit Hc.
    have EL : (Lm F d)^T = invmx (factor_model F d) *m F.
      rewrite LE // [LHS]trmx_mul trmxK. by rewrite (sym_inv (fm_sym F d)).
    have ECx : Cxs Sg F d = Sg *m invmx (factor_model F d) *m F by rewrite /Cxs EL mulmxA.
    have key : Cxs Sg F d = F -> Css Sg F d = 1%:M.
      move=> E. rewrite /Css -mulmxA -/(Cxs Sg F d) E LF // subrK. by [].
    have Hdi : Cxs Sg F d = F -> forall i, resid Sg F d i (row i F)^T = Sg i i - \sum_a F i a * F i a.
      move=> E i. rewrite (residE _ _ _ _ (proj1 HS)) key // E qf1 nsqE.
      rewrite row_sum1 row_sum2.
      move: (Sg i i) => x. hide_sums. Rring.
    have Hfm : forall i, factor_model F d i i = \sum_a F i a * F i a + d i 0 by move=> i; rewrite fm_entry eqxx mulr1n.
    split.
    - case=> EF Ed. rewrite EF in E1 E2. rewrite Ed in E2. have E3 : Cxs Sg F d = F *m Css Sg F d by rewrite {2}E1 -mulmxA mulVmx // mulmx1.
      have E4 : Gm F d *m Css Sg F d = Gm F d.
        have : Lm F d *m Cxs Sg F d = Css Sg F d - Gm F d by rewrite /Css -mulmxA addrK.
        rewrite E3 mulmxA LF // mulmxBl mul1mx => /(congr1 -%R). by rewrite !opprB => /addIr.
      have E5 : Css Sg F d = 1%:M.
        have HGu := spd_unit (G_spd F Hd). by rewrite -[LHS]mul1mx -(mulVmx HGu) -mulmxA E4 mulVmx.
      have E6 : Cxs Sg F d = F by rewrite E3 E5 mulmx1.
      split; first by rewrite -ECx. move=> i. rewrite Hfm E2 Hdi //. move: (Sg i i) => x. hide_sums. Rring.
    - case=> H1 H2. have E6 : Cxs Sg F d = F by rewrite ECx.
      have E7 : F1 = F by rewrite E1 key // E6 invmx1 mulmx1.
      congr (Ok (_, _)) => //. apply/colP => i. rewrite E2 E7 Hdi // -H2 Hfm. move: (d i 0) => x. hide_sums. Rring.
  Qed.
End Em.
