(** * Proofs about ccp_regularize.py: descent, gradients, fixed points. *)
From Coq Require Import Reals Lra ZArith.
Set Warnings "-notation-overridden,-ambiguous-paths".
From mathcomp Require Import all_ssreflect all_algebra.
From Verif Require Import RStruct MatR Py Num Spectral Combination Regularization SpecReg RegProps RegOpt EmFacts EmProps Ccp SpecCcp CcpProps.
Set Implicit Arguments.
Unset Strict Implicit.
Unset Printing Implicit Defensive.
Import GRing.Theory.
Local Open Scope ring_scope.
Delimit Scope R_scope with re.

(** ** Equality in log det M <= tr M - n. *)
Lemma ln_eq_sub1 (x : R) : (0 < x)%re -> (x - 1 <= ln x)%re -> x = R1.
Proof.
  move=> Hx H. case: (Req_dec (ln x) 0) => [E|Hn]; first by have := exp_ln _ Hx; rewrite E exp_0.
  have := exp_ineq1 _ Hn. rewrite exp_ln //. lra.
Qed.
Lemma sumR_eq0 n (x : 'I_n -> R) : (forall i, (0 <= x i)%re) -> (\sum_i x i <= 0)%re -> forall i, x i = R0.
Proof.
  move=> H Hs i. have Hr : (0 <= \sum_(j | j != i) x j)%re by apply: sumR_ge0 => j _; exact: H.
  move: Hs. rewrite (bigD1 i) //=. have := H i. move: (x i) (\sum_(j | _) _) Hr => a b. toR. move=> H1 H2 H3. lra.
Qed.
Lemma logdet_tr_eq n (M : 'M[R]_n) : spd M -> (\tr M - INR n <= ln (\det M))%re -> M = 1%:M.
Proof.
  move=> H. case: (spectral (proj1 H)) => U [d He]. rewrite (det_eig He) (tr_eig He).
  have Hd : forall i, (0 < d ord0 i)%re by move=> i; exact: spd_eig He H.
  rewrite (proj1 (ln_prod Hd)) -sum1. change (Rle (\sum_i d 0 i - \sum_(i < n) 1)%R (\sum_i ln (d 0 i))%R -> M = 1%:M). rewrite -sumrB => Hs.
  have E : forall i, (d ord0 i - 1 - ln (d ord0 i))%re = R0.
    apply: sumR_eq0 => [i|]; first by have := ln_le_sub1 (Hd i); move: (d ord0 i) => z; toR; lra.
    have -> : \sum_i (d ord0 i - 1 - ln (d ord0 i))%re = (\sum_i (d 0 i - 1)) - (\sum_i ln (d 0 i)) by rewrite -sumrB; apply: eq_bigr.
    move: Hs. set a := (\sum_i (d 0 i - 1)). set b := (\sum_i ln _). move: a b => a b. toR. lra.
  have Ed : d = const_mx 1 by apply/rowP => i; rewrite mxE; apply: ln_eq_sub1; [exact: Hd|have := E i; move: (d ord0 i) => z; toR; lra].
  have [HU [HM _]] := He. have HU' := mulmx1C HU. have -> : M = U *m diag_mx d *m U^T by rewrite -HM -mulmxA HU' mulmx1.
  by rewrite Ed diag_const_mx mulmx1.
Qed.
Lemma logdet_tr2_eq n (A B : 'M[R]_n) : spd A -> spd B -> (\tr (A *m B) - INR n <= ln (\det A) + ln (\det B))%re -> A *m B = 1%:M.
Proof.
  move=> HA HB. case E : (chol B) => [C|]; last by move/(chol_none (proj1 HB)): E.
  have HC := chol_is_chol (proj1 HB) E. have Hu := is_chol_unit HC. case: HC => _ [_ EB].
  have HS : spd (C^T *m A *m C).
    split; first by rewrite /sym !trmx_mul trmxK (proj1 HA) mulmxA.
    move=> x Hx. rewrite qf_congr. apply: (proj2 HA). apply/eqP => H0. case/eqP: Hx. exact: unit_inj Hu H0.
  rewrite -EB. have -> : \tr (A *m (C *m C^T)) = \tr (C^T *m A *m C) by rewrite mulmxA mxtrace_mulC mulmxA.
  have Hd : (0 < \det A)%re by exact: spd_det. have := spd_det HB. rewrite -EB det_mulmx => Hdc.
  rewrite -ln_mult //. have -> : (\det A * (\det C * \det C^T)%R)%re = \det (C^T *m A *m C) by rewrite !det_mulmx; move: (\det A) (\det C) (\det C^T) => a b c; Rring.
  move/(logdet_tr_eq HS). rewrite -mulmxA => /mulmx1C. by rewrite mulmxA.
Qed.

(** ** log det (1 + t S) >= t tr S - c t^2 near 0. *)
Lemma ln_lower (x : R) : (- / 2 <= x)%re -> (x - 2 * (x * x) <= ln (1 + x))%re.
Proof.
  move=> H. have H1 : (0 < 1 + x)%re by lra. have := ln_le_sub1 (Rinv_0_lt_compat _ H1). rewrite ln_Rinv // => H2.
  have E : (x - 2 * (x * x) <= 1 - / (1 + x))%re; last by lra.
  apply: (Rmult_le_reg_r (1 + x)) => //. have -> : ((1 - / (1 + x)) * (1 + x))%re = x by field; lra.
  have := Rmult_le_pos _ _ (Rle_0_sqr x) (_ : 0 <= 1 + 2 * x)%re. rewrite /Rsqr. move=> H3. have := H3 ltac:(lra). lra.
Qed.
Lemma spd_of_eig n (M : 'M[R]_n) U d : is_eig M U d -> (forall i, (0 < d ord0 i)%re) -> spd M.
Proof.
  move=> [HU [HM _]] Hd. have HU' := mulmx1C HU. have -> : M = U *m diag_mx d *m U^T by rewrite -HM -mulmxA HU' mulmx1.
  split; first by rewrite /sym !trmx_mul trmxK tr_diag_mx mulmxA.
  move=> x Hx. set y := U^T *m x. have Hy : y != 0.
    apply: contraNneq Hx => E. by rewrite -[x]mul1mx -HU' -mulmxA -/y E mulmx0.
  have -> : qf (U *m diag_mx d *m U^T) x = \sum_i d ord0 i * (y i ord0 * y i ord0).
    rewrite /qf !mulmxA. have -> : x^T *m U = y^T by rewrite /y [RHS]trmx_mul trmxK. rewrite -mulmxA -/y.
    rewrite mul_mx_diag mxE. apply: eq_bigr => i _. rewrite !mxE. move: (y i ord0) (d ord0 i) => a b. Rring.
  have /existsP [j Hj] : [exists i, y i ord0 != 0].
    apply: contraR Hy. rewrite negb_exists => /forallP H. apply/eqP/colP => i. rewrite [RHS]mxE. have := H i. rewrite negbK => /eqP E. exact: E.
  apply: (@sumR_gt0 _ _ j) => [i|].
  - apply: Rmult_le_pos; [exact: Rlt_le|exact: Rle_0_sqr].
  - apply: Rmult_lt_0_compat => //. apply: Rsqr_pos_lt. exact/eqP.
Qed.
Lemma lndet_lower n (S : 'M[R]_n) : sym S -> exists c t0 : R, (0 < t0)%re /\ forall t : R, (0 < t < t0)%re ->
  spd (1%:M + t *: S) /\ (t * \tr S - c * (t * t) <= ln (\det (1%:M + t *: S)%R))%re.
Proof.
  move=> HS. case: (spectral HS) => U [d He]. have [HU [HM Hm]] := He.
  set b : R := \sum_i Rabs (d ord0 i). have Hb : (0 <= b)%re by apply: sumR_ge0 => i _; exact: Rabs_pos.
  have Hdb i : (Rabs (d ord0 i) <= b)%re.
    rewrite /b (bigD1 i) //=. have : (0 <= \sum_(j | j != i) Rabs (d ord0 j))%re by apply: sumR_ge0 => j _; exact: Rabs_pos.
    move: (Rabs _) (\sum_(j | _) _) => u v. toR. lra.
  exists (2 * (\sum_i d ord0 i * d ord0 i)%R)%re, (/ (2 * (1 + b)))%re. split; first by apply: Rinv_0_lt_compat; lra.
  move=> t [H0 Ht]. have Htb : (t * b <= / 2)%re.
    have H1 : (t * (2 * (1 + b)) < 1)%re by have := Rmult_lt_compat_r (2 * (1 + b)) _ _ ltac:(lra) Ht; rewrite Rinv_l; lra. nra.
  have Htd i : (- / 2 <= t * d ord0 i)%re.
    have H1 := Rmult_le_compat_l _ _ _ (Rlt_le _ _ H0) (Hdb i). have H2 := Rle_abs (- d ord0 i). rewrite Rabs_Ropp in H2. have H3 := Rmult_le_compat_l _ _ _ (Rlt_le _ _ H0) H2. lra.
  have He' : is_eig (1%:M + t *: S) U (\row_i (1 + t * d ord0 i)%re).
    split=> //. split.
    - rewrite mulmxDl mul1mx -scalemxAl HM. apply/matrixP => i j. rewrite !mul_mx_diag !mxE. move: (U i j) (d ord0 j) => u v. Rring.
    - move=> i j Hij. rewrite !mxE. apply: Rplus_le_compat_l. apply: Rmult_le_compat_l; [exact: Rlt_le|exact: Hm].
  have Hp i : (0 < (\row_i (1 + t * d ord0 i)%re : 'rV[R]_n) ord0 i)%re by rewrite mxE; have := Htd i; lra.
  split; first exact: spd_of_eig He' Hp.
  rewrite (det_eig He') (proj1 (ln_prod Hp)) (tr_eig He).
  have -> : (t * (\sum_i d ord0 i)%R - 2 * (\sum_i d ord0 i * d ord0 i)%R * (t * t))%re = \sum_i (t * d ord0 i - 2 * ((t * d ord0 i) * (t * d ord0 i)))%re.
    rewrite -[RHS]/(\sum_i (t * d ord0 i + - (2%re * ((t * d ord0 i) * (t * d ord0 i))))) sumrB -mulr_sumr. congr (_ - _).
    rewrite -mulr_sumr. have -> : \sum_i t * d ord0 i * (t * d ord0 i) = t * t * \sum_i d ord0 i * d ord0 i by rewrite mulr_sumr; apply: eq_bigr => i _; move: (d ord0 i) => u; Rring.
    move: (\sum_i _) => u. Rring.
  apply: sumR_le => i _. rewrite mxE. exact: ln_lower.
Qed.

Section Ccp.
  Context (n k : nat).
  Notation vec := 'cV[R]_n.
  Notation fac := 'M[R]_(n, k).
  Implicit Types (e d : vec) (F G : fac) (Sg : 'M[R]_n).

  Lemma trBl m (A B : 'M[R]_m) : \tr (A - B) = \tr A - \tr B.
  Proof. exact: raddfB. Qed.
  Lemma inner_sym G H : inner G H = inner H G.
  Proof. rewrite /inner -mxtrace_tr trmx_mul trmxK. by []. Qed.
  Lemma inner_Bl G G' H : inner (G - G') H = inner G H - inner G' H.
  Proof. by rewrite /inner trB mulmxBl trBl. Qed.
  Lemma inner_Br G H H' : inner G (H - H') = inner G H - inner G H'.
  Proof. by rewrite /inner mulmxBr trBl. Qed.
  Lemma inner_qf Sg G : inner G (Sg *m G) = \sum_a qf Sg (col a G).
  Proof.
    apply: eq_bigr => a _. rewrite /qf -mulmxA !mxE. apply: eq_bigr => i _. rewrite !mxE.
    congr (_ * _). apply: eq_bigr => j _. by rewrite !mxE.
  Qed.
  Lemma inner_ge0 Sg G : psd Sg -> (0 <= inner G (Sg *m G))%re.
  Proof.
    move=> [_ H]. rewrite inner_qf. apply: sumR_ge0 => a _. exact: H.
  Qed.
  Lemma inner_Sg Sg G H : sym Sg -> inner G (Sg *m H) = inner H (Sg *m G).
  Proof. move=> HS. by rewrite inner_sym /inner trmx_mul HS mulmxA. Qed.
  Lemma spd_psd m (A : 'M[R]_m) : spd A -> psd A.
  Proof.
    move=> [Hs H]. split=> // x. case: (boolP (x == 0)) => [/eqP ->|/H]; last exact: Rlt_le. rewrite /qf mulmx0 mxE. exact: Rle_refl.
  Qed.
  Lemma inner_eq0 Sg G : spd Sg -> (inner G (Sg *m G) <= 0)%re -> G = 0.
  Proof.
    move=> HS. have [_ H] := HS. have [_ H'] := spd_psd HS.
    rewrite inner_qf.
    move=> /sumR_eq0 E. apply/matrixP => i a. rewrite mxE. have := E (fun a => H' _) a.
    case: (boolP (col a G == 0)) => [/eqP /colP /(_ i)|/H Hp E0]; first by rewrite !mxE. by move: Hp; rewrite E0 => /Rlt_irrefl.
  Qed.

  (** ** The surrogate of the convex-concave procedure. *)
  Lemma tr_mul_e Sg e : \tr (\matrix_(i, j) (Sg i j * e j 0)) = \tr (Sg *m diag_mx e^T).
  Proof. rewrite /mxtrace. apply: eq_bigr => i _. by rewrite mul_mx_diag !mxE. Qed.
  Lemma surr_E Sg Gk e G : ccp_objective Sg Gk (e, G) =
    (- ln (\det (precision e G)) + \tr (Sg *m diag_mx e^T)%R - 2 * inner G (Sg *m Gk)%R)%re.
  Proof. rewrite /ccp_objective /= big_det tr_mul_e. by rewrite [\tr (_ *m G^T)]mxtrace_mulC. Qed.
  Lemma dev2_E Sg e G : dev2 Sg e G = (- ln (\det (precision e G)) + \tr (Sg *m diag_mx e^T)%R - inner G (Sg *m G)%R)%re.
  Proof. rewrite /dev2 -tr_split /inner mulmxA. move: (\tr _) (\tr _) (ln _) => a b c. toR. lra. Qed.
  Lemma surr_gap Sg Gk e G : sym Sg ->
    ccp_objective Sg Gk (e, G) = (dev2 Sg e G + inner (G - Gk)%R (Sg *m (G - Gk))%R - inner Gk (Sg *m Gk)%R)%re.
  Proof.
    move=> HS. rewrite surr_E dev2_E mulmxBr !inner_Br !inner_Bl (inner_Sg Gk G HS).
    move: (ln _) (\tr _) (inner _ _) (inner _ _) (inner _ _) => a b c d f. toR. lra.
  Qed.

  (** ** The gradient of the surrogate. *)
  Definition Minv e G : 'M[R]_(n + k) := let V := invmx (precision e G) in
    block_mx V (- (V *m G)) (- (G^T *m V)) (1%:M + G^T *m V *m G).
  Lemma M_Minv e G : spd (precision e G) -> big_matrix e G *m Minv e G = 1%:M.
  Proof.
    move=> HK. have Hu := spd_unit HK. set V := invmx (precision e G).
    have E : diag_mx e^T *m V = 1%:M + G *m G^T *m V by rewrite -(mulmxV Hu) -/V -mulmxDl /precision subrK.
    rewrite /big_matrix /Minv -/V mulmx_block !mul1mx !mulmxN !mulmxDr !mulmxA E !mulmxDl !mul1mx !mulmx1 addrK.
    rewrite opprD addrACA addNr add0r addNr subrr. rewrite [- _ + _]addrC addrK. by rewrite scalar_mx_block.
  Qed.
  Lemma Minv_E e G : spd (precision e G) -> Minv e G = invmx (big_matrix e G).
  Proof.
    move=> HK. have Hb : spd (big_matrix e G) by apply/big_spd.
    by rewrite -[RHS]mulmx1 -(M_Minv HK) mulmxA (mulVmx (spd_unit Hb)) mul1mx.
  Qed.
  Lemma tr_MinvM e G e' G' : spd (precision e G) -> \tr (Minv e G *m big_matrix e' G') =
    (\tr (invmx (precision e G) *m diag_mx e'^T)%R - 2 * inner (invmx (precision e G) *m G)%R G' + \tr (1%:M + G^T *m invmx (precision e G) *m G)%R)%re.
  Proof.
    move=> HK. have HV : (invmx (precision e G))^T = invmx (precision e G) by exact: (proj1 (spd_inv HK)).
    rewrite /Minv /big_matrix mulmx_block mxtrace_block !mulmx1 !mulNmx. move: (1%:M + _) => T. rewrite !mxtraceD !raddfN /=.
    have -> : \tr (invmx (precision e G) *m G *m G'^T) = inner (invmx (precision e G) *m G) G'.
      by rewrite inner_sym /inner mxtrace_mulC.
    have -> : \tr (G^T *m invmx (precision e G) *m G') = inner (invmx (precision e G) *m G) G' by rewrite /inner trmx_mul HV.
    move: (\tr _) (inner _ _) (\tr _) => a b c. toR. lra.
  Qed.
  Lemma lndet_big e G : spd (precision e G) -> ln (\det (Minv e G)) = (- ln (\det (precision e G)))%re.
  Proof. move=> HK. rewrite Minv_E // lndet_inv; last by apply/big_spd. by rewrite big_det. Qed.
  Lemma Minv_spd e G : spd (precision e G) -> spd (Minv e G).
  Proof. move=> HK. rewrite Minv_E //. apply: spd_inv. by apply/big_spd. Qed.
  Lemma tr_Minv_self e G : spd (precision e G) -> \tr (Minv e G *m big_matrix e G) = INR (n + k).
  Proof. move=> HK. rewrite (mulmx1C (M_Minv HK)) mxtrace_scalar -sum1 sumr_const card_ord. by []. Qed.
  Lemma tr_diag_sub (V : 'M[R]_n) e e' : \tr (V *m diag_mx e'^T) - \tr (V *m diag_mx e^T) = \sum_i V i i * (e' i 0 - e i 0).
  Proof.
    rewrite /mxtrace -sumrB. apply: eq_bigr => i _. rewrite !mul_mx_diag !mxE. move: (V i i) (e i 0) (e' i 0) => a b c. Rring.
  Qed.
  (** The precision-matrix part is convex; equality only at the same point. *)
  Lemma lndet_grad e G e' G' : spd (precision e G) -> spd (precision e' G') ->
    (ln (\det (precision e' G')) <= ln (\det (precision e G)) + (\sum_i invmx (precision e G) i i * (e' i 0 - e i 0))%R
       - 2 * inner (invmx (precision e G) *m G)%R (G' - G)%R)%re /\
    ((ln (\det (precision e G)) + (\sum_i invmx (precision e G) i i * (e' i 0 - e i 0))%R
       - 2 * inner (invmx (precision e G) *m G)%R (G' - G)%R <= ln (\det (precision e' G')))%re -> e' = e /\ G' = G).
  Proof.
    move=> HK HK'. have H1 := Minv_spd HK. have H2 : spd (big_matrix e' G') by apply/big_spd.
    have H3 := logdet_tr2 H1 H2. have H4 := logdet_tr2_eq H1 H2. rewrite lndet_big // big_det in H3 H4. rewrite -(tr_Minv_self HK) in H3 H4.
    rewrite !(tr_MinvM _ _ HK) in H3 H4. rewrite -tr_diag_sub inner_Br.
    move: H3 H4. set a := ln _. set b := ln _. set c := \tr _. set p := inner _ G'. set q := \tr _. set r := \tr _. set t := inner _ G.
    move=> H3 H4. split; first by move: H3; clear; move: a b c p q r t => a b c p q r t; toR; lra.
    move=> H5. have H6 : (c - 2 * p + q - (r - 2 * t + q) <= - a + b)%re by move: H5; clear; move: a b c p q r t => a b c p q r t; toR; lra.
    move/H4: H6 => H6. have E : big_matrix e' G' = big_matrix e G.
      by rewrite -[LHS]mul1mx -(M_Minv HK) -mulmxA H6 mulmx1.
    move: E => /eq_block_mx [E1 E2 _ _]. split=> //. apply/colP => i. have := congr1 (fun M : 'M[R]_n => M i i) E1. by rewrite !mxE eqxx !mulr1n.
  Qed.
End Ccp.
