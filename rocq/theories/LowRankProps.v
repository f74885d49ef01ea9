(** * Facts about low_rank_ewma.py. *)
From Coq Require Import Reals ZArith String List Lia Lra.
Set Warnings "-notation-overridden,-ambiguous-paths".
From mathcomp Require Import all_ssreflect all_algebra.
From mathcomp.zify Require Import zify_ssreflect.
From Coq Require Import ClassicalEpsilon Classical_Pred_Type.
From Verif Require Import RStruct MatR Spectral Num Py Spec EwmaReal Combination Regularization SpecReg RegProps LowRankEwma SpecLowRank.
Set Implicit Arguments.
Unset Strict Implicit.
Unset Printing Implicit Defensive.
Import GRing.Theory.
Local Open Scope ring_scope.
Delimit Scope R_scope with re.

Section Sum.
  Context (n k : nat).
  Implicit Types (F : 'M[R]_(n, k)) (d r : 'cV[R]_n).

  Lemma relu_ge0 x : (0 <= relu x)%re.
  Proof. rewrite /relu. case: Rlt_dec => H /=; toR; lra. Qed.
  Lemma relu_ge x : (x <= relu x)%re.
  Proof. rewrite /relu. case: Rlt_dec => H /=; toR; lra. Qed.
  Lemma relu_pos x : (0 < relu x)%re -> relu x = x.
  Proof. rewrite /relu. case: Rlt_dec => H //=; toR; lra. Qed.
  Lemma relu_id x : (0 <= x)%re -> relu x = x.
  Proof. rewrite /relu. case: Rlt_dec => H //=; lra. Qed.

  Definition rowsq F r i : R := (\sum_a F i a * F i a + r i 0 * r i 0)%R.
  Lemma rowsq_ge0 F r i : (0 <= rowsq F r i)%re.
  Proof.
    rewrite /rowsq. toR. apply: Rplus_le_le_0_compat; [|nra]. apply: sumR_ge0 => a _. toR. nra.
  Qed.

  Definition sg F r (i : 'I_n) : R := sqrt (rowsq F r i).
  Definition okrows F r := [forall i, rowsq F r i != 0].
  Lemma sg_pos F r i : okrows F r -> (0 < sg F r i)%re.
  Proof.
    move=> /forallP /(_ i) /eqP H. apply: sqrt_lt_R0. have := rowsq_ge0 F r i => H'. case: (Rle_lt_or_eq_dec _ _ H') => // E. by case: H.
  Qed.
  Lemma sg_sq F r i : sg F r i * sg F r i = rowsq F r i.
  Proof. toR. apply: sqrt_sqrt. exact: rowsq_ge0. Qed.
  Lemma scaleE' F r i : lr_scale F r i 0 = (/ sg F r i)%re.
  Proof. rewrite mxE /rcp /sg /rowsq. toR. eqR. by rewrite /Rdiv Rmult_1_l. Qed.

  (** The matrix of the operator. *)
  Definition lrA F r : 'M[R]_n := \matrix_(i, j) (/ sg F r i * (F *m F^T + r *m r^T)%R i j * / sg F r j)%re.
  Definition lrG F r : 'M[R]_(n, k + 1) := row_mx (\matrix_(i, a) (/ sg F r i * F i a)%re) (\matrix_(i, a) ((/ sg F r i)%re * r i 0)).
  Lemma gramE F r i j : (F *m F^T + r *m r^T) i j = \sum_a F i a * F j a + r i 0 * r j 0.
  Proof. rewrite addE !mxE. congr (_ + _); first by apply: eq_bigr => a _; rewrite !mxE. by rewrite big_ord1 !mxE. Qed.
  Lemma scaled_sum F r (G : 'M[R]_(n, k)) (H : 'M[R]_(k, n)) i j : (forall a, G i a = (/ sg F r i)%re * F i a) ->
    (forall a, H a j = (/ sg F r j)%re * F j a) -> (G *m H) i j = (/ sg F r i * / sg F r j)%re * \sum_a F i a * F j a.
  Proof. move=> H1 H2. rewrite mxE big_distrr /=. apply: eq_bigr => a _. rewrite H1 H2. Rring. Qed.
  Lemma lrA_gram F r : lrA F r = lrG F r *m (lrG F r)^T.
  Proof.
    rewrite /lrG tr_row_mx mul_row_col. apply/matrixP => i j. rewrite mxE gramE addE.
    rewrite (@scaled_sum F r); [|by move=> a; rewrite mxE|by move=> a; rewrite !mxE].
    rewrite [X in _ = _ + X]mxE big_ord1 !mxE. hide_sums. Rring.
  Qed.
  Lemma lrA_psd F r : psd (lrA F r).
  Proof. rewrite lrA_gram. have := psd_gram (lrG F r)^T. by rewrite trmxK. Qed.
  Lemma lrA_mv F r x : lr_mv F r x = lrA F r *m x.
  Proof.
    rewrite /lr_mv mulmxA -mulmxDl. congr (_ *m x). apply/matrixP => i j. rewrite addE [RHS]mxE gramE.
    rewrite (@scaled_sum F r); [|by move=> a; rewrite mxE scaleE'|by move=> a; rewrite mxE scaleE'; Rring].
    rewrite mxE !scaleE'. hide_sums. Rring.
  Qed.
  Lemma lrA_diag F r i : okrows F r -> lrA F r i i = 1.
  Proof.
    move=> H. have Hp := sg_pos i H. rewrite mxE gramE -/(rowsq F r i) -sg_sq. toR. eqR. field. lra.
  Qed.

  Lemma lrs_inv eigsh F d r F' d' : low_rank_sum eigsh F d r = Ok (F', d') ->
    okrows F r /\ (0 < k < n)%N /\ exists lam Q, eigsh (lr_mv F r) = Some (lam, Q) /\
      (forall i a, F' i a = sg F r i * (Q i a * sqrt (relu (lam 0 a)))) /\
      forall i, d' i 0 = relu (sg F r i * sg F r i * (1 - \sum_a Q i a * Q i a * relu (lam 0 a)) + d i 0).
  Proof.
    rewrite /low_rank_sum. case: ifP => // Hr. case: eqP => // Hk. case: ifP => // Hn.
    case E: (eigsh _) => [[lam Q]|] //= [<- <-]. split; first exact: Hr. split; first by lia.
    have Hp i : (0 < sg F r i)%re by apply: sg_pos; exact: Hr.
    exists lam, Q. split=> //. split.
    - move=> i a. rewrite !mxE -/(lr_scale F r). rewrite -/(rowsq F r i) -/(sg F r i) /rcp. toR. eqR. rewrite /Rdiv !Rmult_1_l Rinv_inv. ring.
    - move=> i. rewrite mxE. congr relu. rewrite mxE scaleE' [X in _ * X * _ * _]mxE scaleE'.
      set X := \sum_(a < k) _. set Y := \sum_(a < k) _.
      have -> : X = Y.
        apply: eq_bigr => a _. rewrite !mxE. have := sqrt_sqrt _ (relu_ge0 (lam 0 a)) => Hs. toR. eqR. rewrite -{3}Hs. ring.
      have := Hp i. move: (sg F r i) Y => s Y Hs. rewrite RinvE; last by (apply: Rinv_neq_0_compat; lra).
      rewrite /rcp. toR. eqR. rewrite /Rdiv. field. lra.
  Qed.

  Lemma fm_diag F d i : factor_model F d i i = \sum_a F i a * F i a + d i 0.
  Proof. by rewrite fm_entry eqxx mulr1n. Qed.

  (** Any eigen-solver: the diagonal never shrinks and d stays non-negative. *)
  Lemma lrs_diag eigsh F d r F' d' i : low_rank_sum eigsh F d r = Ok (F', d') ->
    Rle 0 (d' i 0) /\
    Rle (factor_model F d i i + r i 0 * r i 0) (factor_model F' d' i i) /\
    (Rlt 0 (d' i 0) -> factor_model F' d' i i = factor_model F d i i + r i 0 * r i 0).
  Proof.
    move=> /lrs_inv [Hr [_ [lam [Q [_ [HF Hd]]]]]].
    have HE : \sum_a F' i a * F' i a = sg F r i * sg F r i * \sum_a Q i a * Q i a * relu (lam 0 a).
      rewrite big_distrr /=. apply: eq_bigr => a _. rewrite !HF. have := sqrt_sqrt _ (relu_ge0 (lam 0 a)) => Hs. toR. eqR. rewrite -{3}Hs. ring.
    rewrite !fm_diag HE Hd. set Y := \sum_a Q i a * Q i a * relu (lam 0 a).
    have HS : sg F r i * sg F r i = \sum_a F i a * F i a + r i 0 * r i 0 := sg_sq F r i.
    move: HS. set Z := \sum_a F i a * F i a. clearbody Y Z. move=> HS. toR_in HS.
    split; first exact: relu_ge0. split.
    - apply: Rle_trans; last (apply: Rplus_le_compat_l; exact: relu_ge). toR. rewrite !HS. apply: Req_le. ring.
    - move/relu_pos => ->. toR. eqR. rewrite !HS. ring.
  Qed.

  (** With exact eigenvectors. *)
  Section Exact.
    Context (A : 'M[R]_n) (lam : 'rV[R]_k) (Q : 'M[R]_(n, k)).
    Hypothesis HA : psd A.
    Hypothesis HQ : top_eig A lam Q.
    Let P : 'M[R]_n := 1%:M - Q *m Q^T.
    Let B : 'M[R]_n := A - Q *m diag_mx lam *m Q^T.
    Lemma P_sym : P^T = P.
    Proof. by rewrite /P trB trmx1 trmx_mul trmxK. Qed.
    Lemma QP : Q^T *m P = 0.
    Proof. case: HQ => H _. by rewrite /P mulmxBr mulmx1 mulmxA H mul1mx subrr. Qed.
    Lemma QA : Q^T *m A = diag_mx lam *m Q^T.
    Proof. case: HQ => _ [H _]. have := congr1 trmx H. by rewrite !trmx_mul tr_diag_mx (proj1 HA). Qed.
    Lemma PAP : P *m A *m P = B.
    Proof.
      have H2 : A *m P = B.
        rewrite /P /B mulmxBr mulmx1 mulmxA. by case: HQ => _ [-> _].
      have HPQ : P *m Q = 0 by have := congr1 trmx QP; rewrite trmx_mul trmxK P_sym trmx0.
      have HPA : P *m A = B by rewrite /P /B mulmxBl mul1mx -(mulmxA Q) QA mulmxA.
      rewrite -(mulmxA P A P) H2 {1}/B mulmxBr HPA !mulmxA HPQ !mul0mx. exact: subr0.
    Qed.
    Lemma B_psd : psd B.
    Proof.
      rewrite -PAP. split.
      - by rewrite /sym !trmx_mul P_sym (proj1 HA) mulmxA.
      - move=> x. have := qf_congr P A x. rewrite P_sym => ->. exact: (proj2 HA).
    Qed.
    Lemma lam_ge0 a : Rle 0 (lam 0%R a).
    Proof.
      have E : qf A (col a Q) = lam 0 a.
        have -> : col a Q = Q *m delta_mx a 0 by rewrite -colE.
        rewrite /qf trmx_mul !mulmxA -(mulmxA _ Q^T A) QA. rewrite -!mulmxA (mulmxA Q^T Q). case: HQ => -> _.
        by rewrite mul1mx trmx_delta -rowE -colE !mxE eqxx mulr1n.
      rewrite -E. exact: (proj2 HA).
    Qed.
    Lemma qf_delta (M : 'M[R]_n) i : qf M (delta_mx i 0) = M i i.
    Proof. by rewrite /qf trmx_delta -rowE -colE !mxE. Qed.
    Lemma B_diag i : B i i = A i i - \sum_a Q i a * Q i a * relu (lam 0 a).
    Proof.
      rewrite /B subE. congr (_ - _). rewrite mxE. apply: eq_bigr => a _. rewrite mxE.
      rewrite (bigD1 a) //= big1 => [|b /negbTE Hb]; last by rewrite mxE Hb mulr0n mulr0.
      rewrite !mxE eqxx mulr1n addr0 relu_id; last exact: lam_ge0. change (@fun_of_matrix (GRing.Ring.sort R_ringType)) with (@fun_of_matrix R). toR. eqR. ring.
    Qed.
    Lemma B_ge0 i : (0 <= B i i)%re.
    Proof. rewrite -qf_delta. exact: (proj2 B_psd). Qed.

    (** Nothing is lost if the rank is at most k. *)
    Lemma psd_qf0 (M : 'M[R]_n) : psd M -> (forall x, qf M x = 0) -> M = 0.
    Proof.
      move=> [Hs _] H. apply/matrixP => i j. rewrite [RHS]mxE.
      have Hij := H (delta_mx i 0 + delta_mx j 0).
      have E : qf M (delta_mx i 0 + delta_mx j 0) = M i i + M i j + (M j i + M j j).
        rewrite /qf trD !trmx_delta mulmxDl mulmxDr [in LHS]addE !mulmxDl !addE.
        rewrite -!rowE -!colE !mxE. toR. change (@fun_of_matrix (GRing.Ring.sort R_ringType)) with (@fun_of_matrix R). eqR. ring.
      have Hi := H (delta_mx i 0). have Hj := H (delta_mx j 0). rewrite !qf_delta in Hi Hj.
      have Hji : M j i = M i j by rewrite -{1}Hs mxE.
      rewrite E Hi Hj Hji in Hij. toR_in Hij. toR. eqR. lra.
    Qed.
    Lemma B_zero : (\rank A <= k)%N -> B = 0.
    Proof.
      move=> Hk. case: HQ => H1 [H2 H3].
      case: (boolP [forall a, lam 0 a != 0]) => [Hnz|]; last first.
        rewrite negb_forall => /existsP [a /negPn /eqP Ha].
        apply: psd_qf0; first exact: B_psd. move=> x. rewrite -PAP.
        have := qf_congr P A x. rewrite P_sym => ->.
        have := H3 (P *m x) a. rewrite mulmxA QP mul0mx Ha Rabs_R0 => /(_ erefl).
        have := proj2 HA (P *m x). move: (qf A (P *m x)) (nsq (P *m x)) => u v Hu. rewrite Rabs_right; last lra. move=> Hx. toR_in Hx. toR. eqR. lra.
      have HQA : (Q^T <= A)%MS.
        have HL : diag_mx lam \in unitmx.
          rewrite unitmxE det_diag unitfE. apply/prodf_neq0 => a _. by move/forallP: Hnz => /(_ a).
        apply/submxP. exists (invmx (diag_mx lam) *m Q^T). by rewrite -mulmxA QA mulmxA mulVmx // mul1mx.
      have Hr : \rank Q^T = k.
        apply/eqP. rewrite eqn_leq rank_leq_row /=. have := mxrankM_maxl Q^T Q. by rewrite H1 mxrank1.
      have HAQ : (A <= Q^T)%MS.
        have := mxrank_leqif_sup HQA => -[_ <-]. by rewrite eqn_leq Hr Hk andbT -Hr mxrankS.
      have [Y HY] := submxP HAQ. rewrite -PAP -mulmxA {1}HY -mulmxA QP mulmx0. by rewrite mulmx0.
    Qed.
  End Exact.

  (** One update with a faithful eigen-solver: what F' leaves out is positive semidefinite and its diagonal goes to d'. *)
  Lemma lrs_split eigsh F d r F' d' : eigsh_ok eigsh -> (forall i, Rle 0 (d i 0%R)) -> low_rank_sum eigsh F d r = Ok (F', d') ->
    exists E, psd E /\ F *m F^T + r *m r^T = F' *m F'^T + E /\ (forall i, d' i 0 = d i 0 + E i i) /\
      ((\rank (F *m F^T + r *m r^T)%R <= k)%N -> E = 0).
  Proof.
    move=> Hok Hd0 H. have [Hr [_ [lam [Q [Heig [HF Hd]]]]]] := lrs_inv H.
    have HA := lrA_psd F r. have HQ := Hok _ _ _ _ (proj1 HA) (lrA_mv F r) Heig.
    set B := lrA F r - Q *m diag_mx lam *m Q^T. set Sg := diag_mx (\row_i sg F r i).
    have HSg M i j : (Sg *m M *m Sg) i j = sg F r i * M i j * sg F r j by rewrite /Sg mul_mx_diag mul_diag_mx !mxE.
    have HSA : F *m F^T + r *m r^T = Sg *m lrA F r *m Sg.
      apply/matrixP => i j. rewrite HSg [lrA F r i j]mxE. have := sg_pos i Hr. have := sg_pos j Hr. move: ((F *m F^T + r *m r^T) i j) (sg F r i) (sg F r j) => u v w Hw Hv.
      toR. apply: (eq_trans (y := (v * (/ v * u * / w) * w)%re)) => //. apply: esym. by change (@eq R (v * (/ v * u * / w) * w)%re u); field; split; lra.
    have HFF : F' *m F'^T = Sg *m (Q *m diag_mx lam *m Q^T) *m Sg.
      apply/matrixP => i j. rewrite HSg mxE [(Q *m diag_mx lam *m Q^T) i j]mxE big_distrr big_distrl /=. apply: eq_bigr => a _.
      rewrite [F'^T a j]mxE !HF [Q^T a j]mxE mul_mx_diag mxE.
      have Hl := lam_ge0 HA HQ a. rewrite relu_id //. have Hs := sqrt_sqrt _ Hl.
      change (@fun_of_matrix (GRing.Ring.sort R_ringType)) with (@fun_of_matrix R). toR. eqR. rewrite -{3}Hs. ring.
    exists (Sg *m B *m Sg). split; [|split; [|split]].
    - have HS : Sg^T = Sg by rewrite /Sg tr_diag_mx.
      have HB := B_psd HA HQ. split.
      + rewrite /sym !trmx_mul HS. rewrite (proj1 HB). by rewrite mulmxA.
      + move=> x. rewrite -{1}HS qf_congr. exact: (proj2 HB).
    - by rewrite HSA HFF -mulmxDl -mulmxDr addrC subrK.
    - move=> i. rewrite HSg (B_diag HA HQ) lrA_diag // Hd. rewrite relu_id.
      + set Y := \sum_a _. clearbody Y. toR. eqR. ring.
      + have HB := B_ge0 HA HQ i. rewrite (B_diag HA HQ) lrA_diag // in HB. move: HB. set Y := \sum_a _. clearbody Y => HB. toR_in HB. toR.
        have := sg_pos i Hr. have := Hd0 i. nra.
    - move=> Hk. rewrite (_ : B = 0) ?mulmx0 ?mul0mx //. apply: B_zero HA HQ _. apply: leq_trans Hk.
      pose Si := diag_mx (\row_i (/ sg F r i)%re).
      have -> : lrA F r = Si *m (F *m F^T + r *m r^T) *m Si.
        apply/matrixP => i j. rewrite /Si mul_mx_diag mul_diag_mx. rewrite [lrA F r i j]mxE. by rewrite !mxE.
      apply: leq_trans (mxrankM_maxl _ _) _. exact: mxrankM_maxr.
  Qed.

  (** The whole run. *)
  Context (h : R) (x : nat -> 'cV[R]_n).
  Hypothesis hpos : (0 < h)%re.
  Let b := decay h.
  Let Hb : (0 < b < 1)%re := decay_bounds _ hpos.

  Lemma moment_S t : ew_moment h x t.+1 = (1 - wnew b t.+1)%re *: ew_moment h x t + wnew b t.+1 *: (x t.+1 *m (x t.+1)^T).
  Proof.
    apply/matrixP => i j. rewrite addE !scaleE !mxE big_ord1 !mxE.
    change (fun s : nat => x s i 0 * x s j 0) with (fun s : nat => x s i ord0 * x s j ord0)%re.
    rewrite (ewavg_S _ Hb). toR. by eqR.
  Qed.
  Lemma moment_0 : ew_moment h x 0 = x 0%N *m (x 0%N)^T.
  Proof. apply/matrixP => i j. rewrite !mxE big_ord1 !mxE. rewrite /ewavg /=. toR. eqR. field. Qed.
  Lemma moment_rank t : (\rank (ew_moment h x t) <= t.+1)%N.
  Proof.
    have H1 (v : 'cV[R]_n) : (\rank (v *m v^T) <= 1)%N by apply: leq_trans (mxrankM_maxl _ _) _; apply: (rank_leq_col v).
    elim: t => [|t IH]; first by rewrite moment_0.
    rewrite moment_S. apply: leq_trans (mxrank_add _ _) _. rewrite -[t.+2]addn1. apply: leq_add; apply: leq_trans (mxrank_scale _ _) _; auto.
  Qed.

  Definition lr_inv t (st : factors n k) := exists E, psd E /\ ew_moment h x t = st.1 *m st.1^T + E /\ (forall i, st.2 i 0 = E i i) /\
    ((t < k)%N -> E = 0).
  Lemma lr_inv_step eigsh t st st' : eigsh_ok eigsh -> lr_inv t st -> lr_step eigsh b t.+1 st (x t.+1) = Ok st' -> lr_inv t.+1 st'.
  Proof.
    move=> Hok [E [HE [HM [Hd Hk]]]]. case: st' => F' d' H.
    have Hw := wnew_pos _ Hb t.+1. have Hw1 := wnew_lt1 _ Hb t.+1 ltac:(lia).
    have Ew : ((1 - b) / (1 - b ^ (t.+1 + 1)))%re = wnew b t.+1 by [].
    have Eo : ((b - b ^ (t.+1 + 1)) / (1 - b ^ (t.+1 + 1)))%re = (1 - wnew b t.+1)%re.
      rewrite /wnew. change (Nat.add t.+1 1) with (t.+1 + 1)%N. field. exact: (den_ne _ Hb t.+1).
    rewrite /lr_step Ew Eo in H. set w := wnew b t.+1 in Hw Hw1 H.
    have Hs c (M : 'M[R]_(n, k)) : (0 <= c)%re -> (sqrt c *: M) *m (sqrt c *: M)^T = c *: (M *m M^T).
      move=> Hc. rewrite linearZ /= -scalemxAl -scalemxAr scalerA. congr (_ *: _). exact: sqrt_sqrt.
    have Hsv c (M : 'cV[R]_n) : (0 <= c)%re -> (sqrt c *: M) *m (sqrt c *: M)^T = c *: (M *m M^T).
      move=> Hc. rewrite linearZ /= -scalemxAl -scalemxAr scalerA. congr (_ *: _). exact: sqrt_sqrt.
    have Hge i : Rle 0 (((1 - w)%re *: st.2) i 0%R).
      rewrite scaleE Hd -qf_delta. have := proj2 HE (delta_mx i 0). toR. nra.
    have [E' [HE' [HM' [Hd' Hk']]]] := lrs_split Hok Hge H.
    rewrite Hs ?Hsv in HM' Hk'; try lra.
    have HMM : ew_moment h x t.+1 = F' *m F'^T + ((1 - w)%re *: E + E').
      rewrite moment_S -/w HM scalerDr addrAC HM' -!addrA. congr (_ + _). exact: addrC.
    exists ((1 - w)%re *: E + E'). split; [|split; [|split]].
    - split.
      + by rewrite /sym linearD linearZ /= (proj1 HE) (proj1 HE').
      + move=> y. rewrite qfD qfZ. have := proj2 HE y. have := proj2 HE' y. toR. nra.
    - exact: HMM.
    - move=> i. rewrite /= Hd' addE !scaleE Hd. by [].
    - move=> Ht. have HE0 : E = 0 by apply: Hk; lia.
      rewrite HE0 scaler0 add0r. apply: Hk'. rewrite HM' HE0 scaler0 add0r in HMM *. rewrite -HMM. apply: leq_trans (moment_rank _) _. lia.
  Qed.

  Lemma lr_inv0 : (0 < k)%N -> lr_inv 0 (@F_init n k (x 0%N), 0).
  Proof.
    move=> Hk. exists 0. split; [|split; [|split]] => //.
    - split; first by rewrite /sym trmx0. move=> y. rewrite /qf mulmx0 mul0mx mxE. exact: Rle_refl.
    - rewrite addr0 moment_0. apply/matrixP => i j. rewrite !mxE big_ord1 (bigD1 (Ordinal Hk)) //= big1 => [|a Ha].
      + by rewrite !mxE /= addr0.
      + rewrite !mxE. have -> : (a == 0 :> nat)%N = false by apply/negbTE; apply: contra Ha => /eqP Ha; apply/eqP/val_inj. by rewrite mul0r.
    - move=> i. by rewrite !mxE.
  Qed.

  Lemma lr_loop_inv eigsh : eigsh_ok eigsh -> forall rows t st, lr_inv t st -> (forall s, (s < size rows)%N -> nth 0 rows s = x (t.+1 + s)) ->
    forall s st', List.nth_error (lr_loop eigsh b t.+1 st rows).1 s = Some st' -> lr_inv (t.+1 + s) st'.
  Proof.
    move=> Hok. elim=> [|row rows IH] t st Hst Hx s st' //=; first by case: s.
    case Hs: (lr_step _ _ _ _ _) => [st1|e] /=; last by case: s.
    have Hrow : row = x t.+1 by have := Hx 0%N erefl; rewrite /= addn0.
    have Hst1 : lr_inv t.+1 st1 by apply: lr_inv_step Hok Hst _; rewrite -Hrow.
    case: s => [|s] /=; first by case=> <-; rewrite addn0.
    move=> Hn. rewrite addnS -addSn. apply: IH Hst1 _ _ _ Hn => r Hr. have := Hx r.+1 Hr. by rewrite addnS -addSn.
  Qed.
End Sum.

Lemma beta_decay h : exp (- ln 2 / h)%re = decay h.
Proof. rewrite /decay /Rpower. congr exp. rewrite /Rdiv. ring. Qed.

Section Run.
  Context (n k : nat).
  Lemma general_states (eigsh : eigsh_t n k) (rows : seq 'cV[R]_n) h t st : eigsh_ok eigsh -> (0 < h)%re ->
    List.nth_error (general_low_rank eigsh rows (Some h)).1 t = Some st -> lr_inv h (fun s => nth 0 rows s) t st.
  Proof.
    move=> Hok Hh. rewrite /general_low_rank. case: Req_EM_T => Hh0; first by case: t.
    rewrite beta_decay. case: rows => [|y0 rows]; first by case: t. case: eqP => [|/eqP Hk]; first by case: t. rewrite -lt0n in Hk.
    case: t => [|t] /=.
    - case=> <-. have := @lr_inv0 n k h (fun s => nth 0 (y0 :: rows) s) Hk. by [].
    - move=> H. have := @lr_loop_inv n k h (fun s => nth 0 (y0 :: rows) s) Hh eigsh Hok rows 0 _ (@lr_inv0 n k h _ Hk) _ t st. apply=> //.
  Qed.

  Lemma scale_diag (vola : 'cV[R]_n) (st st' : factors n k) : scale_low_rank vola st = Some st' -> 
    (forall i, factor_model st'.1 st'.2 i i = vola i 0 * vola i 0) /\
    forall i j, factor_model st'.1 st'.2 i j * (sqrt (factor_model st.1 st.2 i i) * sqrt (factor_model st.1 st.2 j j))%re =
      factor_model st.1 st.2 i j * (vola i 0 * vola j 0).
  Proof.
    rewrite /scale_low_rank. case: ifP => // /forallP Hp [<-] /=.
    have Hd i : (0 < get_diagonal st.1 st.2 i ord0)%re by move: (Hp i); case: Rlt_dec.
    have Hg i : factor_model st.1 st.2 i i = get_diagonal st.1 st.2 i 0 by rewrite fm_diag mxE.
    have Hs i := sqrt_lt_R0 _ (Hd i).
    set G := get_diagonal st.1 st.2 in Hd Hg Hs *.
    set st1 := (X in factor_model X _). set d1 := (X in factor_model _ X).
    have H i j : factor_model st1 d1 i j =
       vola i 0 * rcp (sqrt (G i 0)) * (vola j 0 * rcp (sqrt (G j 0))) * factor_model st.1 st.2 i j.
      rewrite !fm_entry mulrDr big_distrr /=. congr (_ + _).
      - apply: eq_bigr => a _. rewrite !mxE. Rring.
      - case: eqP => [->|_]; last by rewrite !mulr0n mulr0. rewrite !mulr1n !mxE. Rring.
    split=> [i|i j]; rewrite H.
    - rewrite Hg. have := Hs i. have := sqrt_sqrt _ (Rlt_le _ _ (Hd i)). move: (sqrt _) => q <- Hq. rewrite /rcp. toR. eqR. field. lra.
    - rewrite !Hg. have := Hs i. have := Hs j. move: (sqrt (G i 0)) (sqrt (G j 0)) (factor_model _ _ i j) => q q' M Hq' Hq. rewrite /rcp. toR. eqR. field. lra.
  Qed.

  Lemma scale_some (vola : 'cV[R]_n) (st : factors n k) : scale_low_rank vola st <> None <-> forall i, Rlt 0 (factor_model st.1 st.2 i i).
  Proof.
    rewrite /scale_low_rank. case: ifP => [/forallP H|/negP H]; split=> // H'.
    - move=> i. rewrite fm_diag. move: (H i). case: Rlt_dec => //. by rewrite mxE.
    - case: H. apply/forallP => i. case: Rlt_dec => //. by rewrite mxE -fm_diag.
  Qed.

  (** A run whose eigen-solver answers and whose later rows have no zeros is complete. *)
  Lemma lrs_total (eigsh : eigsh_t n k) F d (r : 'cV[R]_n) : (0 < k < n)%N -> eigsh_total eigsh -> (forall i, r i 0 != 0) -> exists st, low_rank_sum eigsh F d r = Ok st.
  Proof.
    move=> /andP [Hk Hn] He Hr. rewrite /low_rank_sum.
    have -> : [forall i, \sum_a F i a * F i a + r i 0 * r i 0 != 0].
      apply/forallP => i. apply/eqP => H. have Hri := Hr i. move/eqP: Hri. apply.
      have : (0 <= \sum_a F i a * F i a)%re by apply: sumR_ge0 => a _; toR; nra.
      move: H. set Z := \sum_a _. clearbody Z => H HZ. toR_in H. toR. eqR. nra.
    case: eqP => [H|_]; first by rewrite H in Hk. rewrite leqNgt Hn /=.
    case E: (eigsh _) => [lq|] /=; first by eexists. case: (He _ _ (lrA_psd F r) (lrA_mv F r) E).
  Qed.
  Lemma loop_total (eigsh : eigsh_t n k) b : (0 < b < 1)%re -> (0 < k < n)%N -> eigsh_total eigsh -> forall rows m st,
    (forall (row : 'cV[R]_n) i, row \in rows -> row i 0 != 0) ->
    let g := lr_loop eigsh b m st rows in g.2 = None /\ size g.1 = size rows.
  Proof.
    move=> Hb Hk He. elim=> [|row rows IH] m st Hr //=.
    have [st1 Hst1] : exists st1, lr_step eigsh b m st row = Ok st1.
      apply: lrs_total => // i. rewrite scaleE mulf_neq0 ?Hr ?mem_head //. apply/eqP => H.
      have := wnew_pos _ Hb m => /sqrt_lt_R0. change (sqrt (wnew b m)) with (sqrt ((1 - b) / (1 - b ^ (m + 1)))%re). rewrite H. exact: Rlt_irrefl.
    rewrite Hst1 /=. have Hr' : forall (r : 'cV[R]_n) i, r \in rows -> r i 0 != 0 by move=> r i Hri; apply: Hr; rewrite in_cons Hri orbT.
    case: (IH m.+1 st1 Hr') => H1 H2. by rewrite H1 H2.
  Qed.
  Lemma general_total (eigsh : eigsh_t n k) y0 rows h : (0 < h)%re -> (0 < k < n)%N -> eigsh_total eigsh ->
    (forall (row : 'cV[R]_n) i, row \in rows -> row i 0 != 0) ->
    let g := general_low_rank eigsh (y0 :: rows) (Some h) in g.2 = None /\ size g.1 = (size rows).+1.
  Proof.
    move=> Hh Hk He Hr. cbv zeta. rewrite /general_low_rank. destruct (Req_EM_T h 0) as [Hh0|Hh0]; first by (exfalso; lra). case: eqP => [H|_]; first by rewrite H in Hk.
    rewrite beta_decay. case: (@loop_total eigsh (decay h) (decay_bounds _ Hh) Hk He rows 1 (F_init k y0, 0) Hr) => H1 H2. by rewrite /= H1 H2.
  Qed.

  (** Such eigen-solvers exist. *)
  Lemma top_eig_ex (A : 'M[R]_n) : psd A -> (k <= n)%N -> exists lq : 'rV[R]_k * 'M[R]_(n, k), top_eig A lq.1 lq.2.
  Proof.
    move=> HA Hk. case: (partial_ex (proj1 HA) Hk) => U [d [H1 [H2 [_ H3]]]]. exists (d, U). split=> //. split=> // x a Hx.
    have := H3 a x Hx. have := proj2 HA x. have Hx0 := nsq_ge0 x. move=> Hq Hle.
    rewrite Rabs_right; last by apply: Rle_ge. apply: Rle_trans Hle _. apply: Rmult_le_compat_r => //. exact: Rle_abs.
  Qed.
  Definition eigsh_exact : eigsh_t n k := fun mv =>
    match excluded_middle_informative (exists Alq : 'M[R]_n * ('rV[R]_k * 'M[R]_(n, k)), (forall x, mv x = Alq.1 *m x) /\ top_eig Alq.1 Alq.2.1 Alq.2.2) with
    | left H => Some (projT1 (constructive_indefinite_description _ H)).2
    | right _ => None
    end.
  Lemma eigsh_exact_ok : eigsh_ok eigsh_exact.
  Proof.
    move=> mv A lam Q _ Hmv. rewrite /eigsh_exact. case: excluded_middle_informative => // H.
    case: constructive_indefinite_description => -[A' lq] /= [Hmv' Htop] [E]. subst lq. rewrite /= in Htop.
    have <- // : A' = A. apply/matrixP => i j. have := Hmv (delta_mx j 0). rewrite Hmv' -!colE => /matrixP /(_ i 0). by rewrite !mxE.
  Qed.
  Lemma eigsh_exact_total : (k <= n)%N -> eigsh_total eigsh_exact.
  Proof.
    move=> Hk mv A HA Hmv. rewrite /eigsh_exact. case: excluded_middle_informative => // H. exfalso. apply: H.
    have [lq Hlq] := top_eig_ex HA Hk. by exists (A, lq).
  Qed.

  Lemma items_states (eigsh : eigsh_t n k) ts rows h mp p t st : eigsh_ok eigsh -> (0 < h)%re ->
    List.nth_error (ewma_low_rank eigsh ts rows (Some h) mp).1 p = Some (t, st) ->
    t = nth Z0 ts (mp.-1 + p) /\ lr_inv h (fun s => nth 0 rows s) (mp.-1 + p) st.
  Proof.
    move=> Hok Hh. rewrite /ewma_low_rank /=. case: eqP => _; first by case: p.
    set g := (general_low_rank eigsh rows (Some h)).1.
    have Hdrop (T : Type) (s : seq T) m q : List.nth_error (drop m s) q = List.nth_error s (m + q).
      elim: m s => [|m IH] [|a s] //=; by destruct q.
    have Hzip (s : seq Z) (s' : seq (factors n k)) q a b : List.nth_error (zip s s') q = Some (a, b) -> nth Z0 s q = a /\ List.nth_error s' q = Some b.
      elim: q s s' => [|q IH] [|a1 s] [|b1 s'] //=; [by case=> -> ->|exact: IH].
    rewrite Hdrop => /Hzip [<- H]. split=> //. exact: general_states Hok Hh H.
  Qed.
  Lemma items_total (eigsh : eigsh_t n k) ts y0 rows h mp : (0 < h)%re -> (0 < k < n)%N -> eigsh_total eigsh -> size ts = (size rows).+1 ->
    (forall (row : 'cV[R]_n) i, row \in rows -> row i 0 != 0) ->
    let g := ewma_low_rank eigsh ts (y0 :: rows) (Some h) mp in g.2 = None /\ map fst g.1 = drop mp.-1 ts.
  Proof.
    move=> Hh Hk He Hs Hr. cbv zeta. rewrite /ewma_low_rank. have [H1 H2] := general_total y0 Hh Hk He Hr.
    rewrite {1}/snd /fst in H1 H2 *. 
    case E: (general_low_rank eigsh (y0 :: rows) (Some h)) H1 H2 => [gs ge] /= H1 H2. split=> //.
    have -> : (n == 0)%N = false by apply/negbTE; lia.
    rewrite map_drop -/(unzip1 _) unzip1_zip // H2 Hs. exact: leqnn.
  Qed.
End Run.

Section Final.
  Context (n k : nat).
  Implicit Types (F : 'M[R]_(n, k)) (d r : 'cV[R]_n) (eigsh : eigsh_t n k).
  Lemma gram_diag F r i : (F *m F^T + r *m r^T) i i = \sum_a F i a * F i a + r i 0 * r i 0.
  Proof. exact: gramE. Qed.
  Lemma lrs_keeps eigsh F d r F' d' : eigsh_ok eigsh -> (forall i, Rle 0 (d i 0%R)) -> low_rank_sum eigsh F d r = Ok (F', d') ->
    (forall i, factor_model F' d' i i = factor_model F d i i + r i 0 * r i 0) /\
    exists E, psd E /\ F *m F^T + r *m r^T = F' *m F'^T + E /\ forall i, d' i 0 = d i 0 + E i i.
  Proof.
    move=> Hok Hd H. have [E [HE [HM [Hd' _]]]] := lrs_split Hok Hd H. split; last by exists E.
    move=> i. rewrite !fm_diag Hd'. have := congr1 (fun M : 'M[R]_n => M i i) HM. rewrite /= gram_diag addE.
    have -> : (F' *m F'^T) i i = \sum_a F' i a * F' i a by rewrite mxE; apply: eq_bigr => a _; rewrite mxE.
    move: (\sum_a F i a * F i a) (\sum_a F' i a * F' i a) => u v Huv. rewrite addrCA -Huv. toR. eqR. ring.
  Qed.
  Lemma lrs_no_loss eigsh F d r F' d' : eigsh_ok eigsh -> (forall i, Rle 0 (d i 0%R)) -> low_rank_sum eigsh F d r = Ok (F', d') ->
    (\rank (F *m F^T + r *m r^T)%R <= k)%N -> F' *m F'^T = F *m F^T + r *m r^T /\ d' = d.
  Proof.
    move=> Hok Hd H Hk. have [E [HE [HM [Hd' H0]]]] := lrs_split Hok Hd H. rewrite (H0 Hk) addr0 in HM Hd'. split=> //.
    apply/matrixP => i j. by rewrite ord1 Hd' mxE addr0.
  Qed.
  Lemma run_items eigsh ts rows h mp p t F d : eigsh_ok eigsh -> Rlt 0 h ->
    List.nth_error (ewma_low_rank eigsh ts rows (Some h) mp).1 p = Some (t, (F, d)) ->
    let pos := (mp.-1 + p)%N in let M := ew_moment h (fun s => nth 0 rows s) pos in
    t = nth Z0 ts pos /\
    (forall i, Rle 0 (d i 0) /\ factor_model F d i i = M i i) /\
    (exists E, psd E /\ M = F *m F^T + E /\ forall i, d i 0 = E i i).
  Proof.
    move=> Hok Hh H. cbv zeta. have [-> [E [HE [HM [Hd _]]]]] := items_states Hok Hh H. split=> //. split; last by exists E.
    move=> i. rewrite /= in HM Hd. split.
    - rewrite Hd -qf_delta. exact: (proj2 HE).
    - rewrite fm_diag HM addE Hd. congr (_ + _). rewrite mxE. by apply: eq_bigr => a _; rewrite mxE.
  Qed.
  Lemma run_exact eigsh ts rows h mp p t F d : eigsh_ok eigsh -> Rlt 0 h ->
    List.nth_error (ewma_low_rank eigsh ts rows (Some h) mp).1 p = Some (t, (F, d)) -> (mp.-1 + p < k)%N ->
    F *m F^T = ew_moment h (fun s => nth 0 rows s) (mp.-1 + p) /\ d = 0.
  Proof.
    move=> Hok Hh H Hk. have [_ [E [HE [HM [Hd H0]]]]] := items_states Hok Hh H. rewrite /= in HM Hd. rewrite (H0 Hk) addr0 in HM Hd. split=> //.
    apply/matrixP => i j. by rewrite ord1 Hd !mxE.
  Qed.
End Final.

(** ** A concrete run. *)
Section Example.
  Definition lr_y0 : 'cV[R]_3 := \col_i (INR i).
  Definition lr_y1 : 'cV[R]_3 := \col_i (1 + INR i)%re.
  Definition lr_y2 : 'cV[R]_3 := \col_i (- 1)%re.
  Lemma y1_nz i : lr_y1 i 0 != 0.
  Proof. rewrite mxE. apply/eqP => H. have := pos_INR i. toR_in H. lra. Qed.
  Lemma y2_nz i : lr_y2 i 0 != 0.
  Proof. rewrite mxE. apply/eqP => H. toR_in H. lra. Qed.
  Lemma ex_lr_sum : exists F' d', low_rank_sum (@eigsh_exact 3 1) (F_init 1 lr_y0) 0 lr_y1 = Ok (F', d').
  Proof.
    have [[F d] H] := @lrs_total 3 1 _ (F_init 1 lr_y0) 0 lr_y1 isT (@eigsh_exact_total 3 1 isT) y1_nz. by exists F, d.
  Qed.
  Lemma ex_lr_rank : exists F' d', low_rank_sum (@eigsh_exact 3 2) (F_init 2 lr_y0) 0 lr_y1 = Ok (F', d') /\
    (\rank (F_init 2 lr_y0 *m (F_init 2 lr_y0)^T + lr_y1 *m lr_y1^T)%R <= 2)%N.
  Proof.
    have [[F d] H] := @lrs_total 3 2 _ (F_init 2 lr_y0) 0 lr_y1 isT (@eigsh_exact_total 3 2 isT) y1_nz. exists F, d. split=> //.
    have -> : F_init 2 lr_y0 *m (F_init 2 lr_y0)^T = lr_y0 *m lr_y0^T.
      apply/matrixP => i j. rewrite !mxE !big_ord_recl !big_ord0 !mxE /=. by rewrite !addr0 mul0r addr0.
    apply: leq_trans (mxrank_add _ _) _. rewrite -[2%N]/(1 + 1)%N. apply: leq_add; apply: leq_trans (mxrankM_maxl _ _) _; exact: rank_leq_col.
  Qed.
  Lemma ex_lr_run : exists F d F2 d2,
    eigsh_ok (@eigsh_exact 3 1) /\ eigsh_total (@eigsh_exact 3 1) /\
    ewma_low_rank (@eigsh_exact 3 1) [:: Z0; Z.of_nat 1; Z.of_nat 2] [:: lr_y0; lr_y1; lr_y2] (Some 2%re) 2 =
      ([:: (Z.of_nat 1, (F, d)); (Z.of_nat 2, (F2, d2))], None) /\
    (forall i, Rlt 0 (factor_model F2 d2 i i)) /\
    exists st, scale_low_rank lr_y0 (F2, d2) = Some st.
  Proof.
    have Ht := @eigsh_exact_total 3 1 isT.
    have Hnz : forall (row : 'cV[R]_3) i, row \in [:: lr_y1; lr_y2] -> row i 0 != 0.
      move=> row i. rewrite !inE => /orP [] /eqP ->; [exact: y1_nz|exact: y2_nz].
    have H2 : Rlt 0 2 by lra.
    have := @general_total 3 1 _ lr_y0 [:: lr_y1; lr_y2] 2%re H2 isT Ht Hnz. cbv zeta. case=> Hg1 Hg2.
    have Hst := @general_states 3 1 (@eigsh_exact 3 1) [:: lr_y0; lr_y1; lr_y2] 2%re 2 _ (@eigsh_exact_ok 3 1) H2.
    rewrite /ewma_low_rank.
    case E: (general_low_rank _ _ _) Hg1 Hg2 Hst => [[|s0 [|[F d] [|[F2 d2] [|s4 g]]]] ge] //= -> _ Hst.
    exists F, d, F2, d2. split; first exact: eigsh_exact_ok. split=> //. split=> //.
    have Hpos : forall i, Rlt 0 (factor_model F2 d2 i i).
      move=> i. have [E0 [HE [HM [Hd _]]]] := Hst _ erefl. rewrite /= in HM Hd.
      have -> : factor_model F2 d2 i i = ew_moment 2%re (fun s => nth 0 [:: lr_y0; lr_y1; lr_y2] s) 2 i i.
        rewrite fm_diag HM addE Hd. congr (_ + _). rewrite mxE. by apply: eq_bigr => a _; rewrite mxE.
      rewrite mxE. rewrite (ewavg_S _ (decay_bounds _ H2)).
      have Hw := wnew_pos _ (decay_bounds _ H2) 2. have Hw1 := wnew_lt1 _ (decay_bounds _ H2) 2 ltac:(lia).
      rewrite (ewavg_S _ (decay_bounds _ H2)).
      have Hv := wnew_pos _ (decay_bounds _ H2) 1. have Hv1 := wnew_lt1 _ (decay_bounds _ H2) 1 ltac:(lia).
      rewrite /ewavg /=. rewrite !mxE. move: Hw Hw1 Hv Hv1. move: (wnew _ 2) (wnew _ 1) => w v Hw Hw1 Hv Hv1.
      have Hi := pos_INR i. move: (INR i) Hi => u Hu. toR.
      have -> : ((0 + 1 * (u * u)) / (0 + 1) = u * u)%re by field.
      have H3 : (0 <= (1 - v) * (u * u) + v * ((1 + u) * (1 + u)))%re by nra.
      nra.
    split=> //. case Es: (scale_low_rank _ _) => [st|]; first by exists st. by have := proj2 (scale_some lr_y0 (F2, d2)) Hpos; rewrite Es.
  Qed.
End Example.
