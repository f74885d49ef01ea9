(** * factor_model.py: full covariances, likelihoods, failures. *)
From Coq Require Import Classical_Prop Reals Lra ZArith String List Lia.
Set Warnings "-notation-overridden,-ambiguous-paths".
From mathcomp Require Import all_ssreflect all_algebra.
From Verif Require Import RStruct MatR Num Py ListFacts XRFacts Ewma EwmaPrefix Spec SpecEwma EwmaFirst Combination SpecComb CombFacts CombBuild CombSolve CombRun CombProps CombItems RealLA SpecCombR CombReal CombExact FromEwmas SpecFrom FromEwmasProps ExpUtils SpecExp ExpLL CombPerm Trader TraderMain BacktestProps RetComb SpecRet RetEwm RetPred FactorModel SpecFactor FactorCov FactorCov2 FactorMain FactorLoop FactorItems FactorItem.
Set Implicit Arguments.
Unset Strict Implicit.
Unset Printing Implicit Defensive.
Import GRing.Theory.
Local Open Scope ring_scope.
Delimit Scope R_scope with re.
Delimit Scope Z_scope with z.

Section Full.
  Context (n k : nat).
  Implicit Types (i : fitem n k) (x : 'cV[R]_n).

  Lemma qf_diag (d x : 'cV[R]_n) : qf (diag_mx d^T) x = \sum_a d a ord0 * (x a ord0 * x a ord0).
  Proof.
    rewrite /qf mxE. apply: eq_bigr => a _. rewrite mul_mx_diag !mxE. by rewrite mulrAC [LHS]mulrC.
  Qed.
  Lemma qf_full i x : qf (full_cov i) x = qf (f_cov i) (f_exposure i *m x) + \sum_a f_diag i a ord0 * (x a ord0 * x a ord0).
  Proof. by rewrite /full_cov /qf mulmxDr mulmxDl mxE -/(qf _ x) -/(qf (diag_mx _) x) qf_congr qf_diag. Qed.
  Lemma full_sym i : sym (f_cov i) -> sym (full_cov i).
  Proof. move=> H. by rewrite /sym /full_cov linearD /= tr_diag_mx !trmx_mul trmxK H mulmxA. Qed.

  Definition terms_ge0 i : Prop := forall a, (0 <= f_diag i a ord0)%re.
  Lemma sum_ge0 (f : 'I_n -> R) : (forall a, 0 <= f a)%re -> (0 <= \sum_a f a)%re.
  Proof. move=> H. apply: (big_ind (fun x : R => (0 <= x)%re)) => [|a b Ha Hb|a _]; [exact: Rle_refl|exact: Rplus_le_le_0_compat|exact: H]. Qed.
  Lemma sum_gt0 (f : 'I_n -> R) a : (forall a, 0 <= f a)%re -> (0 < f a)%re -> (0 < \sum_a f a)%re.
  Proof.
    move=> H Ha. rewrite (bigD1 a) //=. apply: Rplus_lt_le_0_compat => //.
    apply: (big_ind (fun x : R => (0 <= x)%re)) => [|u v Hu Hv|b _]; [exact: Rle_refl|exact: Rplus_le_le_0_compat|exact: H].
  Qed.
  Lemma sq_term i x a : terms_ge0 i -> (0 <= (f_diag i a ord0 * (x a ord0 * x a ord0))%R)%re.
  Proof. move=> H. apply: Rmult_le_pos (H a) _. exact: Rle_0_sqr. Qed.

  Lemma full_psd i : spd (f_cov i) -> terms_ge0 i -> psd (full_cov i).
  Proof.
    move=> Hc Hd. split; first by apply: full_sym; case: Hc. move=> x. rewrite qf_full. apply: Rplus_le_le_0_compat.
    - by apply: (spd_psd Hc).2.
    - apply: sum_ge0 => a. exact: sq_term.
  Qed.
  Lemma full_spd i : spd (f_cov i) -> terms_ge0 i ->
    spd (full_cov i) <-> forall x, x <> 0 -> f_exposure i *m x <> 0 \/ exists a, f_diag i a ord0 <> 0 /\ x a ord0 <> 0.
  Proof.
    move=> Hc Hd. split.
    - move=> [_ Hp] x /eqP Hx. have := Hp x Hx. rewrite qf_full => H. apply: NNPP => Hn.
      have HE : f_exposure i *m x = 0 by apply: NNPP => HE; apply: Hn; left.
      have H0 : \sum_a f_diag i a ord0 * (x a ord0 * x a ord0) = 0 :> R.
      { apply: big1 => a _. case: (Req_EM_T (f_diag i a ord0) 0) => [->|H1]; first by rewrite mul0r.
        case: (Req_EM_T (x a ord0) 0) => [->|H2]; first by rewrite mul0r mulr0. case: Hn. right. by exists a. }
      rewrite HE H0 /qf mulmx0 mxE addr0 in H. exact: Rlt_irrefl H.
    - move=> H. split; first by apply: full_sym; case: Hc. move=> x /eqP Hx. rewrite qf_full.
      have Hq := (spd_psd Hc).2 (f_exposure i *m x).
      have Hs : (0 <= (\sum_a f_diag i a ord0 * (x a ord0 * x a ord0))%R)%re by apply: sum_ge0 => a; exact: sq_term.
      case: (H x Hx) => [HE|[a [Ha Hxa]]].
      + apply: Rplus_lt_le_0_compat => //. apply: Hc.2. exact/eqP.
      + apply: Rplus_le_lt_0_compat => //. apply: (@sum_gt0 _ a) => [b|]; first exact: sq_term.
        apply: Rmult_lt_0_compat; last exact: Rsqr_pos_lt. case: (Rle_lt_or_eq_dec _ _ (Hd a)) => // E0. by case: Ha.
  Qed.

  (** The idiosyncratic variances. *)
  Lemma idio_ge0 (E : 'M[R]_(k, n)) rows p a : (0 <= idio E rows p a)%re.
  Proof.
    have Hp := half_pos 21. rewrite /idio. apply: Rmult_le_pos.
    - apply: (big_ind (fun x : R => (0 <= x)%re)) => [|u v Hu Hv|s _]; [exact: Rle_refl|exact: Rplus_le_le_0_compat|].
      apply: Rmult_le_pos; last exact: Rle_0_sqr. rewrite powE. apply: pow_le. exact: Rlt_le.
    - apply: Rlt_le. apply: Rinv_0_lt_compat. rewrite (bigD1 ord_max) //= subnn expr0. apply: Rplus_lt_le_0_compat; first exact: Rlt_0_1.
      apply: (big_ind (fun x : R => (0 <= x)%re)) => [|u v Hu Hv|s _]; [exact: Rle_refl|exact: Rplus_le_le_0_compat|].
      rewrite powE. apply: pow_le. exact: Rlt_le.
  Qed.
  Lemma pow_pos (c : R) m : (0 < c)%re -> (0 < (c ^+ m)%R)%re.
  Proof. move=> H. rewrite powE. exact: pow_lt. Qed.
  Lemma idio_zero (E : 'M[R]_(k, n)) rows p a : idio E rows p a = 0 <-> forall s, (s <= p)%N -> residual E rows s a ord0 = 0.
  Proof.
    have Hp := half_pos 21. split.
    - move=> H s Hs. apply: NNPP => Hne. have Hsq : (0 < residual E rows s a ord0 * residual E rows s a ord0)%re by apply: Rsqr_pos_lt.
      move: H. rewrite /idio => H.
      have Hnum : (0 < (\sum_(s < p.+1) half_decay 21 ^+ (p - s) * (residual E rows s a ord0 * residual E rows s a ord0))%R)%re.
      { have Hs' : (s < p.+1)%N by []. rewrite (bigD1 (Ordinal Hs')) //=. apply: Rplus_lt_le_0_compat.
        - apply: Rmult_lt_0_compat => //. exact: pow_pos.
        - apply: (big_ind (fun x : R => (0 <= x)%re)) => [|u v Hu Hv|q _]; [exact: Rle_refl|exact: Rplus_le_le_0_compat|].
          apply: Rmult_le_pos; last exact: Rle_0_sqr. apply: Rlt_le. exact: pow_pos. }
      have Hden : (0 < (\sum_(s < p.+1) half_decay 21 ^+ (p - s))%R)%re.
      { rewrite (bigD1 ord_max) //= subnn expr0. apply: Rplus_lt_le_0_compat; first exact: Rlt_0_1.
        apply: (big_ind (fun x : R => (0 <= x)%re)) => [|u v Hu Hv|q _]; [exact: Rle_refl|exact: Rplus_le_le_0_compat|].
        apply: Rlt_le. exact: pow_pos. }
      have := Rdiv_lt_0_compat _ _ Hnum Hden. rewrite H. exact: Rlt_irrefl.
    - move=> H. rewrite /idio big1 => [|s _]; first by rewrite /Rdiv Rmult_0_l. rewrite H; first by rewrite mul0r mulr0. by case: s.
  Qed.
  Lemma idio_pos (E : 'M[R]_(k, n)) rows p a : (0 < idio E rows p a)%re <-> exists2 s, (s <= p)%N & residual E rows s a ord0 <> 0.
  Proof.
    split.
    - move=> H. apply: NNPP => Hn. have : idio E rows p a = 0.
      { apply/idio_zero => s Hs. apply: NNPP => Hr. apply: Hn. by exists s. }
      move=> E0. rewrite E0 in H. exact: Rlt_irrefl H.
    - move=> [s Hs Hr]. case: (Rle_lt_or_eq_dec _ _ (idio_ge0 E rows p a)) => // E0. case: Hr. by apply: (proj1 (idio_zero E rows p a)).
  Qed.

  (** from_factor_to_full_covariance *)
  Lemma full_dict (items : seq (fitem n k)) : List.NoDup (map (@f_time n k) items) ->
    from_factor_to_full_covariance items = [seq (f_time i, full_cov i) | i <- items].
  Proof. move=> H. apply: dict_of_nodup. by rewrite mapE -map_comp. Qed.

  (** factor_log_likelihood *)
  Section LL.
    Context (times : seq Z) (rows : seq 'cV[R]_n).
    Hypothesis Hinc : increasing times.
    Hypothesis Hsz : size rows = size times.

    Lemma shifted_size : size (rcons (behead (map (@Some 'cV[R]_n) rows)) None) = (size rows).-1.+1.
    Proof. by rewrite size_rcons size_behead size_map. Qed.
    Lemma shifted_get p : (p < size times)%N ->
      dict_get Z.eqb (zip times (rcons (behead (map (@Some 'cV[R]_n) rows)) None)) (nth Z0 times p) =
      Some (if (p.+1 < size times)%N then Some (nth 0 rows p.+1) else None).
    Proof.
      move=> Hp. have Hs : size (rcons (behead (map (@Some 'cV[R]_n) rows)) None) = size times by rewrite shifted_size Hsz; case: (size times) Hp.
      apply: dict_get_in.
      - rewrite mapE -/unzip1 unzip1_zip ?Hs //. exact: increasing_NoDup.
      - apply/(In_nthP (Z0, None)). exists p; first by rewrite size_zip Hs minnn.
        rewrite nth_zip ?Hs //. congr pair. rewrite nth_rcons size_behead size_map Hsz nth_behead.
        have -> : (p < (size times).-1)%N = (p.+1 < size times)%N by case: (size times).
        case: ltnP => H; first by rewrite (nth_map 0) ?Hsz. by case: ifP.
    Qed.
    Notation ll := (@factor_log_likelihood n k times rows).
    Definition score_at (p : nat) i : option R :=
      if (p.+1 < size times)%N then Some (ln (normal_density 0 (full_cov i) (nth 0 rows p.+1))) else None.

    Lemma ll_scores (qs : seq (nat * fitem n k)) :
      (forall q, List.In q qs -> (q.1 < size times)%N /\ f_time q.2 = nth Z0 times q.1 /\ spd (full_cov q.2)) ->
      ll (map snd qs) = Ok [seq (nth Z0 times q.1, score_at q.1 q.2) | q <- qs].
    Proof.
      elim: qs => [//|q qs IH] H. have [H1 [H2 H3]] := H q (or_introl erefl).
      rewrite /factor_log_likelihood. cbn [mapM map]. rewrite H2 shifted_get //. cbn [or_raise bind]. rewrite (spd_unit H3). cbn [bind].
      have := IH. rewrite /factor_log_likelihood => ->; last by move=> q' Hq'; apply: H; right.
      cbn [bind]. congr (Ok ((_, _) :: _)). rewrite /score_at. case: ifP => // _ /=. by rewrite ll_density.
    Qed.
    Lemma ll_app l1 l2 : ll (l1 ++ l2) = do a <- ll l1; do b <- ll l2; Ok (a ++ b).
    Proof.
      rewrite /factor_log_likelihood. elim: l1 => [|i l1 IH] /=; first by case: (mapM _ l2).
      case: (or_raise _ _) => //= r. case: (if _ then _ else _) => //= v. rewrite IH. case: (mapM _ l1) => //= a. by case: (mapM _ l2).
    Qed.
    Lemma ll_unknown l1 i l2 a : ll l1 = Ok a -> ~ List.In (f_time i) times -> ll (l1 ++ i :: l2) = Raise KeyError.
    Proof.
      move=> H1 Hn. rewrite ll_app H1. cbn [bind]. rewrite {1}/factor_log_likelihood. cbn [mapM].
      have -> : dict_get Z.eqb (zip times (rcons (behead (map (@Some 'cV[R]_n) rows)) None)) (f_time i) = None.
      { move: (rcons _ _) Hn => l. elim: times l => [|t ts IH] [|x l] //= Hn. case: (Z.eqb_spec (f_time i) t) => [E|_]; first by case: Hn; left.
        apply: IH => H. apply: Hn. by right. }
      by [].
    Qed.
    Lemma ll_singular l1 i l2 a : ll l1 = Ok a -> List.In (f_time i) times -> full_cov i \notin unitmx -> ll (l1 ++ i :: l2) = Raise LinAlgError.
    Proof.
      move=> H1 /(In_nthP Z0) [p Hp Et] Hu. rewrite ll_app H1. cbn [bind]. rewrite {1}/factor_log_likelihood. cbn [mapM].
      rewrite Et shifted_get //. cbn [or_raise bind]. by rewrite (negbTE Hu).
    Qed.
  End LL.
End Full.
