(** * Proofs about expectation-maximisation (regularization.py:80-126). *)
From Coq Require Import Reals Lra ZArith.
Set Warnings "-notation-overridden,-ambiguous-paths".
From mathcomp Require Import all_ssreflect all_algebra.
From Verif Require Import RStruct MatR Py Num Spectral Regularization SpecReg RegProps RegOpt EmFacts.
Set Implicit Arguments.
Unset Strict Implicit.
Unset Printing Implicit Defensive.
Import GRing.Theory.
Local Open Scope ring_scope.
Delimit Scope R_scope with re.

Section Em.
  Context (n k : nat).
  Implicit Types (F : 'M[R]_(n, k)) (d : 'cV[R]_n) (Sg : 'M[R]_n).

  Definition Di d : 'M[R]_n := diag_mx (\row_i rcp (d i 0)).
  Definition Wm F d : 'M[R]_k := F^T *m Di d *m F + 1%:M.
  Definition Gm F d : 'M[R]_k := invmx (Wm F d).
  Definition Lm F d : 'M[R]_(k, n) := Gm F d *m F^T *m Di d.

  Lemma Di_sym d : sym (Di d). Proof. exact: tr_diag_mx. Qed.
  Lemma DiD d : pos_vec d -> Di d *m diag_mx d^T = 1%:M.
  Proof.
    move=> Hd. rewrite mulmx_diag -diag_const_mx. congr diag_mx. apply/rowP => i. rewrite !mxE mulrC. exact: rcp_l.
  Qed.
  Lemma Di_psd d : pos_vec d -> psd (Di d).
  Proof.
    move=> Hd. split; first exact: Di_sym. move=> x. rewrite diag_qf. apply: sumR_ge0 => i _.
    apply: Rmult_le_pos; last exact: Rle_0_sqr. rewrite mxE /rcp. apply: Rlt_le. apply: Rdiv_lt_0_compat; [lra|exact: Hd].
  Qed.
  Lemma W_spd F d : pos_vec d -> spd (Wm F d).
  Proof.
    move=> Hd. split; first by rewrite /sym trD trmx1 !trmx_mul trmxK Di_sym mulmxA.
    move=> x Hx. rewrite qfD qf_congr qf1. apply: Rplus_le_lt_0_compat; last exact: nsq_gt0.
    by case: (Di_psd Hd).
  Qed.
  Lemma G_spd F d : pos_vec d -> spd (Gm F d).
  Proof. move=> Hd. apply: spd_inv. exact: W_spd. Qed.
  Lemma GW F d : pos_vec d -> Gm F d *m Wm F d = 1%:M.
  Proof. move=> Hd. apply: mulVmx. apply: spd_unit. exact: W_spd. Qed.
  Lemma LF F d : pos_vec d -> Lm F d *m F = 1%:M - Gm F d.
  Proof.
    move=> Hd. rewrite -(GW F Hd) /Lm /Wm mulmxDr mulmx1 addrK. by rewrite !mulmxA.
  Qed.
  Lemma LV F d : pos_vec d -> Lm F d *m factor_model F d = F^T.
  Proof.
    move=> Hd. rewrite /factor_model mulmxDr mulmxA LF // mulmxBl mul1mx /Lm.
    by rewrite -[_ *m _ *m diag_mx _]mulmxA DiD // mulmx1 subrK.
  Qed.
  Lemma V_unit F d : pos_vec d -> factor_model F d \in unitmx.
  Proof. move=> Hd. apply: spd_unit. exact: fm_spd. Qed.
  Lemma LE F d : pos_vec d -> Lm F d = F^T *m invmx (factor_model F d).
  Proof. move=> Hd. by rewrite -(LV F Hd) -mulmxA mulmxV ?V_unit // mulmx1. Qed.
  (** Woodbury *)
  Lemma V_inv F d : pos_vec d -> invmx (factor_model F d) = Di d - Di d *m F *m Lm F d.
  Proof.
    move=> Hd. have E : (Di d - Di d *m F *m Lm F d) *m factor_model F d = 1%:M.
      rewrite mulmxBl -[_ *m Lm F d *m _]mulmxA LV // /factor_model mulmxDr DiD // mulmxA addrAC subrr add0r //.
    by rewrite -[LHS]mul1mx -E -[RHS]mulmx1 -(mulmxV (V_unit F Hd)) !mulmxA.
  Qed.
  Lemma V_det F d : pos_vec d -> ln (\det (factor_model F d)) = \sum_i ln (d i 0) + ln (\det (Wm F d)).
  Proof.
    move=> Hd. have -> : factor_model F d = diag_mx d^T *m (1%:M + (Di d *m F) *m F^T).
      have H : diag_mx d^T *m Di d = 1%:M by exact: mulmx1C (DiD Hd).
      by rewrite mulmxDr mulmx1 !mulmxA H mul1mx addrC.
    rewrite det_mulmx det_sylvester det_diag mulmxA [1%:M + _]addrC -/(Wm F d).
    have Hd' : forall i, (0 < d^T ord0 i)%re by move=> i; rewrite mxE; exact: Hd.
    have [E H] := ln_prod Hd'. rewrite ln_mult //; last exact: spd_det (W_spd F Hd). rewrite E. congr (_ + _).
    by apply: eq_bigr => i _; rewrite mxE.
  Qed.

  (** ** The steps *)
  Definition Cxs Sg F d : 'M[R]_(n, k) := Sg *m (Lm F d)^T.
  Definition Css Sg F d : 'M[R]_k := Lm F d *m Sg *m (Lm F d)^T + Gm F d.
  Lemma pos_nz d : pos_vec d -> [forall i, d i 0 != 0].
  Proof. move=> Hd. apply/forallP => i. apply/eqP => E. have := Hd i. rewrite E. exact: Rlt_irrefl. Qed.
  Lemma e_step_ok Sg F d : pos_vec d -> e_step Sg F d = Ok (Sg, Cxs Sg F d, Css Sg F d).
  Proof.
    move=> Hd. rewrite /e_step pos_nz //.
    have E : forall (p : nat) (M : 'M[R]_(p, n)), (\matrix_(a, i) (M a i * rcp (d i 0)) : 'M[R]_(p, n)) = M *m Di d.
      move=> p M. apply/matrixP => a i. by rewrite mul_mx_diag !mxE.
    rewrite !E -/(Wm F d) /inv_or_raise (spd_unit (W_spd F Hd)) /= !E -/(Gm F d) -/(Lm F d). by rewrite /Css !mulmxA.
  Qed.
  Lemma sandwich_sym (Q : 'M[R]_(k, n)) Sg : sym Sg -> sym (Q *m Sg *m Q^T).
  Proof. move=> HS. by rewrite /sym !trmx_mul trmxK HS mulmxA. Qed.
  Lemma Css_spd Sg F d : psd Sg -> pos_vec d -> spd (Css Sg F d).
  Proof.
    move=> HS Hd. split.
      by rewrite /sym /Css trD (sandwich_sym _ (proj1 HS)) (proj1 (G_spd F Hd)).
    move=> x Hx. rewrite qfD. apply: Rplus_le_lt_0_compat; last by apply: (proj2 (G_spd F Hd)).
    rewrite -{1}[Lm F d]trmxK qf_congr. by case: HS.
  Qed.
  (** The expected squared residual of asset i when its loadings are f. *)
  Definition resid Sg F d (i : 'I_n) (f : 'cV[R]_k) : R :=
    (qf Sg (delta_mx i 0 - (Lm F d)^T *m f) + qf (Gm F d) f)%R.
  Lemma resid_pos Sg F d i f : spd Sg -> pos_vec d -> (0 < resid Sg F d i f)%re.
  Proof.
    move=> HS Hd. rewrite /resid. case: (eqVneq f 0) => [->|Hf].
      have -> : qf (Gm F d) 0 = 0 by rewrite /qf mulmx0 mxE.
      rewrite mulmx0 subr0 addr0.
      apply: (proj2 HS). apply/eqP => /colP /(_ i) /eqP. by rewrite !mxE !eqxx oner_eq0.
    apply: Rplus_le_lt_0_compat; last by apply: (proj2 (G_spd F Hd)).
    by case: (spd_psd HS).
  Qed.
  Lemma qfN (m : nat) (M : 'M[R]_m) x y : sym M -> qf M (x - y) = qf M x - 2%re * (x^T *m M *m y) 0 0 + qf M y.
  Proof.
    move=> HM. rewrite /qf trB !mulmxBl !mulmxBr !subE.
    have -> : (y^T *m M *m x) 0 0 = (x^T *m M *m y) 0 0.
      by rewrite -[in LHS](trmxK (y^T *m M *m x)) [LHS]mxE !trmx_mul trmxK HM mulmxA.
    move: (_ 0 0) (_ 0 0) (_ 0 0) => p q s. Rring.
  Qed.
  Lemma residE Sg F d i f : sym Sg ->
    resid Sg F d i f = Sg i i - 2%re * (\sum_a Cxs Sg F d i a * f a 0) + qf (Css Sg F d) f.
  Proof.
    move=> HS. rewrite /resid qfN // -!addrA. congr (_ + _).
      by rewrite /qf trmx_delta -mulmxA -colE -rowE !mxE.
    congr (_ + _).
      congr (- (_ * _)). rewrite trmx_delta -rowE mulmxA -row_mul. rewrite -/(Cxs Sg F d) mxE. apply: eq_bigr => a _. by rewrite mxE.
    rewrite /Css qfD -{2}[Lm F d]trmxK qf_congr. by [].
  Qed.
  Lemma m_step_ok Sg F d : psd Sg -> pos_vec d ->
    exists F' d', m_step Sg (Cxs Sg F d) (Css Sg F d) = Ok (F', d') /\ F' = Cxs Sg F d *m invmx (Css Sg F d) /\
      forall i, d' i 0 = resid Sg F d i (row i F')^T.
  Proof.
    move=> HS Hd. have Hc := Css_spd F HS Hd. rewrite /m_step /inv_or_raise (spd_unit Hc) /=. eexists; eexists. split=> //. split=> // i.
    rewrite mxE (residE _ _ _ _ (proj1 HS)). congr (_ - _ * _ + _).
      by apply: eq_bigr => a _; rewrite !mxE.
    rewrite /qf trmxK -row_mul [in RHS]mxE. apply: eq_bigr => a _. by rewrite [row i _ _ _]mxE [(_^T) _ _]mxE [row i _ _ _]mxE mulrC.
  Qed.
  (** One iteration. *)
  Lemma em_step_ok Sg F d : spd Sg -> pos_vec d -> exists F' d', em_step Sg (F, d) = Ok (F', d') /\ pos_vec d' /\
    F' = Cxs Sg F d *m invmx (Css Sg F d) /\ forall i, d' i 0 = resid Sg F d i (row i F')^T.
  Proof.
    move=> HS Hd. rewrite /em_step e_step_ok //=. case: (m_step_ok F (spd_psd HS) Hd) => F' [d' [E1 [E2 E3]]].
    exists F', d'. split=> //. split=> // i. rewrite E3. exact: resid_pos.
  Qed.
End Em.
