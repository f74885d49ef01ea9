(** * Proofs about regularize_covariance: the factors kept are the principal ones. *)
From Coq Require Import Reals Lra ZArith String List Lia.
Set Warnings "-notation-overridden,-ambiguous-paths".
From mathcomp Require Import all_ssreflect all_algebra.
From Verif Require Import RStruct MatR Num Py Combination Spectral Regularization SpecReg RegProps.
Set Implicit Arguments.
Unset Strict Implicit.
Unset Printing Implicit Defensive.
Import GRing.Theory.
Local Open Scope ring_scope.
Delimit Scope R_scope with re.

Lemma tr_sandwich n k (M : 'M[R]_n) (V : 'M[R]_(n, k)) (g : 'rV[R]_k) :
  \tr (M *m (V *m diag_mx g *m V^T)) = \sum_j g 0 j * qf M (col j V).
Proof.
rewrite !mulmxA mxtrace_mulC !mulmxA /mxtrace. apply: eq_bigr => j _.
rewrite mul_mx_diag !mxE mulrC. congr (_ * _). rewrite /qf tr_col -!row_mul.
rewrite [in RHS]mxE. rewrite mxE. apply: eq_bigr => a _. by rewrite !mxE.
Qed.

Section KyFan.
  Context (n r : nat) (A U : 'M[R]_n) (d : 'rV[R]_n).
  Hypothesis He : is_eig A U d.
  Hypothesis Hpsd : psd A.
  Hypothesis Hr0 : (0 < r)%N.
  Hypothesis Hr : (r <= n)%N.
  Lemma kyfan (H : 'M[R]_(n, r)) : psd (A - H *m H^T) -> (\tr (H *m H^T) <= \sum_(i | kept r i) d ord0 i)%re.
  Proof.
    move=> HB. have Hsym : sym (H^T *m H) by rewrite /sym trmx_mul trmxK.
    have [W [e [HW [HBW _]]]] := spectral Hsym. have HW' := mulmx1C HW.
    pose V := H *m W.
    have HV : V^T *m V = diag_mx e by rewrite /V trmx_mul -mulmxA [H^T *m _]mulmxA HBW mulmxA HW mul1mx.
    have HVV : V *m V^T = H *m H^T by rewrite /V trmx_mul mulmxA -[H *m W *m _]mulmxA HW' mulmx1.
    have Hee : forall k, nsq (col k V) = e 0 k.
      move=> k. have : (V^T *m V) k k = e 0 k by rewrite HV mxE eqxx mulr1n.
      move=> <-. rewrite /nsq !mxE. by apply: eq_bigr => a _; rewrite !mxE.
    have He0 : forall k, (0 <= e ord0 k)%re by move=> k; rewrite -[X in (_ <= X)%re]Hee; exact: nsq_ge0.
    pose g : 'rV[R]_r := \row_k (if Req_EM_T (e 0 k) R0 then R0 else Rinv (e 0 k)).
    have Hg0 : forall k, (0 <= g ord0 k)%re.
      move=> k. rewrite mxE. case: Req_EM_T => Hk; first by right.
      left. apply: Rinv_0_lt_compat. case: (He0 k) => // E. by case: Hk; exact: esym E.
    have Hgk : forall k, (e 0 k = 0 /\ g 0 k = 0) \/ e 0 k * g 0 k = 1.
      move=> k. rewrite [g _ _]mxE. case: Req_EM_T => Hk; [by left|right]. toR. by apply: Rinv_r.
    clearbody g. clearbody V. pose P := V *m diag_mx g *m V^T.
    have HgVP : diag_mx g *m diag_mx e *m diag_mx g = diag_mx g.
      rewrite !mulmx_diag. congr diag_mx. apply/rowP => k. rewrite !mxE. case: (Hgk k) => [[-> ->]|E]; first by rewrite mulr0.
      by rewrite -mulrA E mulr1.
    have HPs : sym P by rewrite /sym /P trmx_mul trmx_mul trmxK tr_diag_mx -mulmxA.
    have HPP : P *m P = P.
      by rewrite /P -!mulmxA [V^T *m (V *m _)]mulmxA HV !mulmxA -[V *m _ *m _]mulmxA -[V *m _ *m _]mulmxA HgVP.
    (* P is a projection of rank at most r *)
    pose p j := qf P (col j U).
    have Hpq : forall x, qf P x = \sum_k g 0 k * ((V^T *m x) k 0 * (V^T *m x) k 0).
      move=> x. rewrite -diag_qf /P -{1}[V]trmxK qf_congr //.
    have Hp0 : forall j, (0 <= p j)%re.
      move=> j. rewrite /p Hpq. apply: sumR_ge0 => k _. apply: Rmult_le_pos; [exact: Hg0|exact: Rle_0_sqr].
    have Hp1 : forall j, (p j <= 1)%re.
      move=> j. have : qf (1%:M - P) (col j U) = nsq ((1%:M - P) *m col j U).
        rewrite -qf_gram. congr (qf _ _). rewrite trB trmx1 HPs mulmxBl mul1mx mulmxBr mulmx1 HPP subrr subr0 //.
      have -> : qf (1%:M - P) (col j U) = 1 - p j.
        rewrite /qf mulmxBr mulmxBl subE -/(qf P _) -/(p j) mulmx1 -/(nsq (col j U)). congr (_ - _).
        case: He => HU _. have : (U^T *m U) j j = 1 by rewrite HU mxE eqxx.
        move=> <-. rewrite /nsq !mxE. by apply: eq_bigr => a _; rewrite !mxE.
      move=> E. have := nsq_ge0 ((1%:M - P) *m col j U). rewrite -E. toR. lra.
    have HUU : U *m U^T = 1%:M by case: He => HU _; exact: mulmx1C.
    have Hsum : \sum_j p j = \tr P.
      transitivity (\tr (P *m (U *m diag_mx (const_mx 1) *m U^T))).
        by rewrite tr_sandwich; apply: eq_bigr => j _; rewrite mxE mul1r.
      by rewrite diag_const_mx mulmx1 HUU mulmx1.
    have HtrP : (\tr P <= INR r)%re.
      have -> : \tr P = \sum_k g 0 k * e 0 k.
        have := tr_sandwich 1%:M V g. rewrite mul1mx => ->. apply: eq_bigr => k _. by rewrite qf1 Hee.
      have -> : INR r = \sum_(k < r) 1%R.
        rewrite big_const card_ord. elim: (r) => [//|m IH]. rewrite S_INR IH /= addrC. by [].
      apply: sumR_le => k _. rewrite mulrC. by case: (Hgk k) => [[-> ->]|->]; toR; lra.
    have HAP : \sum_j d 0 j * p j = \tr (A *m P).
      have EA : A = U *m diag_mx d *m U^T by case: He => HU [HAU _]; rewrite -HAU -mulmxA HUU mulmx1.
      rewrite mxtrace_mulC EA tr_sandwich. by [].
    have HHP : \tr (H *m H^T) = \tr (H *m H^T *m P).
      rewrite -HVV /P !mulmxA [RHS]mxtrace_mulC !mulmxA HV -[diag_mx e *m _ *m V]mulmxA HV.
      rewrite !mulmx_diag mxtrace_mulC HV. rewrite !mxtrace_diag. apply: eq_bigr => k _. rewrite !mxE.
      by case: (Hgk k) => [[-> ->]|E]; rewrite ?mul0r // -mulrA E mulr1.
    have HABP : (\tr (H *m H^T *m P) <= \tr (A *m P))%re.
      have : (0 <= \tr ((A - H *m H^T) *m P))%re.
        rewrite /P tr_sandwich. apply: sumR_ge0 => k _. apply: Rmult_le_pos; first exact: Hg0. by case: HB.
      rewrite mulmxBl raddfB /=. toR. lra.
    rewrite HHP. apply: Rle_trans HABP _. rewrite -HAP.
    (* the threshold *)
    have Hi0 : (n - r < n)%N by rewrite ltn_subrL Hr0 (leq_trans Hr0 Hr).
    pose m := d 0 (Ordinal Hi0). have Hm : (0 <= m)%re by exact: (eig_psd _ He Hpsd).
    have Hasc : forall i j : 'I_n, (i <= j)%N -> (d ord0 i <= d ord0 j)%re by case: He => _ [_].
    rewrite [X in (X <= _)%re](bigID (kept r)) /=.
    have E1 : Rle (\sum_(j | ~~ kept r j) d 0 j * p j)%R (m * \sum_(j | ~~ kept r j) p j)%R.
      rewrite mulr_sumr. apply: sumR_le => j Hj. apply: Rmult_le_compat_r; first exact: Hp0.
      apply: Hasc. by move: Hj; rewrite /kept -ltnNge /=; exact: ltnW.
    have E2 : Rle (m * \sum_(j | kept r j) (1 - p j))%R (\sum_(j | kept r j) d 0 j * (1 - p j))%R.
      rewrite mulr_sumr. apply: sumR_le => j Hj. apply: Rmult_le_compat_r.
        by have := Hp1 j; toR; lra.
      by apply: Hasc.
    have E3 : \sum_(j | kept r j) d 0 j * (1 - p j) = \sum_(j | kept r j) d 0 j - \sum_(j | kept r j) d 0 j * p j.
      by rewrite -sumrB; apply: eq_bigr => j _; rewrite mulrBr mulr1.
    have E4 : \sum_(j | kept r j) (1 - p j) = INR r - \sum_(j | kept r j) p j.
      rewrite sumrB. congr (_ - _). rewrite sumr_const. 
      have -> : #|[pred j : 'I_n | kept r j]| = r.
        have := kept_cols_size A U d Hr. rewrite size_rev size_map size_filter -sum1_count big_enum_cond /= sum1_card. by [].
      elim: (r) => [//|k IH]. by rewrite mulrSr IH S_INR.
    have E5 : \sum_j p j = \sum_(j | kept r j) p j + \sum_(j | ~~ kept r j) p j by rewrite (bigID (kept r)).
    rewrite E3 E4 in E2. rewrite Hsum in E5. 
    change (Rle (\sum_(j | kept r j) d 0 j * p j + \sum_(j | ~~ kept r j) d 0 j * p j)%R (\sum_(j | kept r j) d 0 j)%R).
    move: E1 E2 E5 HtrP. move: (\tr P). clear E3 E4. hide_sums. move=> t. toR. move=> E1 E2 E5 HtrP.
    have : (m * (t - INR r) <= 0)%re by nra. rewrite E5.
    nra.
  Qed.
End KyFan.

Section Share.
  Context (n r : nat) (eigh : eigh_t n) (S : 'M[R]_n) (L : LowRank n).
  Hypothesis Hok : eigh_ok eigh.
  Hypothesis Hpsd : psd S.
  Hypothesis Hp : forall i, (0 < S i i)%re.
  Hypothesis HL : regularize_correlation eigh (correlation S) (Z.of_nat r) = Ok L.

  (** The share of the variances explained by the factors. *)
  Lemma share_top f U d : f = kept_cols r S U d -> is_eig (correlation S) U d -> (forall i, (0 <= d ord0 i)%re) ->
    \sum_i (of_cols f *m (of_cols f)^T) i i * rcp (S i i) = \sum_(i | kept r i) d 0 i.
  Proof.
    move=> -> He Hd.
    transitivity (\sum_a \sum_(i | kept r i) d 0 i * (U a i * U a i)).
      apply: eq_bigr => a _. rewrite of_cols_gram /kept_cols (perm_big _ (permEl (perm_rev _))) big_map big_filter big_enum_cond /=.
      rewrite mulr_suml. apply: eq_bigr => i _.
      have -> : (\col_a0 (volas S a0 0 * U a0 i * sqrt (d 0 i)) : 'cV[R]_n) a 0 = volas S a 0 * U a i * sqrt (d 0 i) by rewrite mxE.
      have : sqrt (d 0 i) * sqrt (d 0 i) = d 0 i by exact: sqrt_sqrt (Hd i).
      move: (sqrt (d 0 i)) => z <-. have := rcp_l (Hp a). rewrite -(volas_sq (Hp a)). move: (volas S a 0) => v.
      move: (rcp _) (U a i) => q u E. transitivity ((v * v * q) * (z * z * (u * u))); first by Rring. by rewrite E mul1r.
    rewrite exchange_big /=. apply: eq_bigr => i _. rewrite -mulr_sumr.
    case: He => HU _. have -> : \sum_a U a i * U a i = (U^T *m U) i i by rewrite mxE; apply: eq_bigr => a _; rewrite mxE.
    by rewrite HU mxE eqxx mulr1.
  Qed.

  Theorem largest_share f : F_of S L = map Some f -> forall G : 'M[R]_(n, r), psd (S - G *m G^T) ->
    Rle (\sum_i (G *m G^T) i i / S i i)%R (\sum_i (of_cols f *m (of_cols f)^T) i i / S i i)%R.
  Proof.
    case: (struct_eq Hok Hpsd Hp HL) => f' [Ef [_ [Hr0 [Hr [_ [_ [_ [U [d [He [Ef' Hd]]]]]]]]]]] Hf G HG.
    have -> : f = f' by apply: (@inj_map _ _ Some); [by move=> x y []|rewrite -Hf].
    have Einv : forall i, (S i i)^-1 = rcp (S i i) by move=> i; rewrite RinvE /rcp; [toR; eqR; field|]; have := Hp i; toR; lra.
    rewrite [X in (_ <= X)%re](eq_bigr (fun i => (of_cols f' *m (of_cols f')^T) i i * rcp (S i i))); last by move=> i _; rewrite Einv.
    rewrite (share_top Ef' He Hd).
    pose B : 'M[R]_n := diag_mx (\row_i rcp (volas S i 0)).
    have EB : forall M : 'M[R]_n, B^T *m M *m B = \matrix_(i, j) (rcp (volas S i 0) * M i j * rcp (volas S j 0)).
      move=> M. apply/matrixP => i j. rewrite tr_diag_mx mul_mx_diag mul_diag_mx !mxE. by [].
    have HH : psd (correlation S - (B^T *m G) *m (B^T *m G)^T).
      have -> : correlation S - (B^T *m G) *m (B^T *m G)^T = B^T *m (S - G *m G^T) *m B.
        by rewrite trmx_mul trmxK mulmxBr mulmxBl !mulmxA EB.
      split; first by rewrite /sym !trmx_mul trmxK mulmxA; case: HG => ->.
      move=> x. rewrite qf_congr. by case: HG.
    have := kyfan He (correlation_psd Hp Hpsd) Hr0 Hr HH.
    have -> : \tr ((B^T *m G) *m (B^T *m G)^T) = \sum_i (G *m G^T) i i / S i i; last by [].
    rewrite trmx_mul trmxK !mulmxA -[B^T *m G *m G^T]mulmxA EB /mxtrace. apply: eq_bigr => i _. rewrite [LHS]mxE Einv.
    have -> : rcp (S i i) = rcp (volas S i 0) * rcp (volas S i 0).
      rewrite -(volas_sq (Hp i)) /rcp. have := volas_pos (Hp i). move: (volas S i 0) => v Hv. toR. eqR. field. lra.
    move: ((G *m G^T) i i) => g. Rring.
  Qed.

  (** Principal directions, in descending order. *)
  Theorem principal f : F_of S L = map Some f -> exists lam : seq R, size lam = r /\
    (forall k l, (k < l)%N -> (l < r)%N -> (nth 0 lam l <= nth 0 lam k)%re) /\
    forall k, (k < r)%N ->
      correlation S *m (\col_a (nth 0 f k a 0 / volas S a 0)) = nth 0 lam k *: \col_a (nth 0 f k a 0 / volas S a 0) /\
      forall l, (l < r)%N ->
        \sum_a nth 0 f k a 0 * nth 0 f l a 0 / S a a = if k == l then nth 0 lam k else 0.
  Proof.
    case: (struct_eq Hok Hpsd Hp HL) => f' [Ef [Esz [Hr0 [Hr [_ [_ [_ [U [d [He [Ef' Hd]]]]]]]]]]] Hf.
    have -> : f = f' by apply: (@inj_map _ _ Some); [by move=> x y []|rewrite -Hf].
    pose ix := rev [seq i <- enum 'I_n | kept r i]. exists [seq d 0 i | i <- ix].
    have Six : size ix = r by rewrite -Esz Ef' /kept_cols !size_rev size_map.
    have i0 : 'I_n by exact: (Ordinal (leq_trans Hr0 Hr)).
    have Enth : forall k, (k < r)%N -> nth 0 f' k = \col_a (volas S a 0 * U a (nth i0 ix k) * sqrt (d 0 (nth i0 ix k))).
      move=> k Hk. rewrite Ef' /kept_cols -map_rev -/ix. by rewrite (nth_map i0) // Six.
    have Hsort : sorted (fun a b : 'I_n => (b < a)%N) ix.
      rewrite /ix rev_sorted. apply: sorted_filter; first by move=> a b c; exact: ltn_trans.
      have := iota_ltn_sorted 0 n. by rewrite -val_enum_ord sorted_map.
    have Hlt : forall k l, (k < l)%N -> (l < r)%N -> (nth i0 ix l < nth i0 ix k)%N.
      move=> k l Hkl Hl. have Htr : transitive (fun a b : 'I_n => (b < a)%N) by move=> a b c H1 H2; exact: ltn_trans H2 H1.
      apply: (sorted_ltn_nth Htr i0 Hsort) => //; rewrite inE Six //. exact: ltn_trans Hkl Hl.
    case: (He) => HU [HAU Hasc].
    split; first by rewrite size_map. split.
      move=> k l Hkl Hl. rewrite !(nth_map i0) ?Six //; last exact: ltn_trans Hkl Hl.
      apply: Hasc. apply: ltnW. exact: Hlt.
    have Einv : forall x : R, (0 < x)%re -> x^-1 = rcp x by move=> x Hx; rewrite RinvE /rcp; [toR; eqR; field|]; lra.
    have Hcol : forall k, (k < r)%N -> (\col_a (nth 0 f' k a 0 / volas S a 0) : 'cV[R]_n) = sqrt (d 0 (nth i0 ix k)) *: col (nth i0 ix k) U.
      move=> k Hk. apply/colP => a. rewrite Enth // [LHS]mxE.
      have -> : (\col_a (volas S a 0 * U a (nth i0 ix k) * sqrt (d 0 (nth i0 ix k))) : 'cV[R]_n) a 0 = volas S a 0 * U a (nth i0 ix k) * sqrt (d 0 (nth i0 ix k)) by rewrite mxE.
      rewrite scaleE [col _ _ _ _]mxE. have Hv := volas_pos (Hp a). rewrite Einv //. have : volas S a 0 * rcp (volas S a 0) = 1 by exact: rcp_l Hv.
      move: (rcp (volas S a 0)) => p. move: (volas S a 0) (sqrt _) (U _ _) => q s u E.
      transitivity ((q * p) * (s * u)); first by Rring. by rewrite E mul1r.
    move=> k Hk. rewrite (nth_map i0) ?Six //. split.
      rewrite Hcol // -scalemxAr scalerA mulrC -scalerA. congr (_ *: _).
      rewrite colE mulmxA HAU -mulmxA. apply/colP => a. rewrite scaleE !mxE (bigD1 (nth i0 ix k)) //= big1 ?addr0.
        rewrite mul_diag_mx !mxE !eqxx /= mulr1 (bigD1 (nth i0 ix k)) //= big1 ?addr0; first by rewrite !mxE !eqxx mulr1 mulrC.
        by move=> j /negbTE Hj; rewrite !mxE Hj mulr0.
      by move=> j /negbTE Hj; rewrite mul_diag_mx !mxE Hj !mulr0.
    move=> l Hl.
    transitivity (\sum_a (\col_a (nth 0 f' k a 0 / volas S a 0) : 'cV[R]_n) a 0 * (\col_a (nth 0 f' l a 0 / volas S a 0) : 'cV[R]_n) a 0).
      have Ec : forall (g : 'I_n -> R) b, (\col_a g a : 'cV[R]_n) b 0 = g b by move=> g b; rewrite mxE.
      apply: eq_bigr => a _. rewrite !(Ec (fun a => _ / volas S a 0)).
      have Hv := volas_pos (Hp a). rewrite !Einv ?(Hp a) // -(volas_sq (Hp a)).
      have -> : rcp (volas S a 0 * volas S a 0) = rcp (volas S a 0) * rcp (volas S a 0).
        rewrite /rcp. move: (volas S a 0) Hv => v Hv. toR. eqR. field. lra.
      move: (rcp _) (nth 0 f' k a 0) (nth 0 f' l a 0) => p q s. Rring.
    rewrite !Hcol //.
    have -> : \sum_a (sqrt (d 0 (nth i0 ix k)) *: col (nth i0 ix k) U) a 0 * (sqrt (d 0 (nth i0 ix l)) *: col (nth i0 ix l) U) a 0
       = sqrt (d 0 (nth i0 ix k)) * sqrt (d 0 (nth i0 ix l)) * (U^T *m U) (nth i0 ix k) (nth i0 ix l).
      rewrite [(U^T *m U) _ _]mxE mulr_sumr. apply: eq_bigr => a _. rewrite !scaleE !mxE.
      move: (sqrt _) (sqrt _) (U _ _) (U _ _) => p q x y. Rring.
    rewrite HU mxE. case: (eqVneq k l) => [->|Hne].
      rewrite eqxx mulr1. exact: sqrt_sqrt (Hd _).
    have -> : (nth i0 ix k == nth i0 ix l) = false; last by rewrite mulr0.
    apply/eqP => E. case: (ltngtP k l) Hne => // Hkl _.
    - by have := Hlt _ _ Hkl Hl; rewrite E ltnn.
    - by have := Hlt _ _ Hkl Hk; rewrite E ltnn.
  Qed.
End Share.
