(** * Likelihood, uniqueness of the optimum, degenerate windows. *)
From Coq Require Import Reals Lra ZArith String List Lia.
Set Warnings "-notation-overridden,-ambiguous-paths".
From mathcomp Require Import all_ssreflect all_algebra.
From Verif Require Import RStruct MatR Num Py ListFacts Combination SpecComb CombFacts CombBuild CombSolve CombRun CombProps CombItems RealLA SpecCombR CombReal CombObj.
Set Implicit Arguments.
Unset Strict Implicit.
Unset Printing Implicit Defensive.
Import GRing.Theory.
Local Open Scope ring_scope.
Delimit Scope R_scope with re.

Lemma ln_prod (I : finType) (F : I -> R) : (forall i, (0 < F i)%re) -> ln (\prod_i F i) = \sum_i ln (F i).
Proof.
move=> H.
suff : (0 < \prod_i F i)%re /\ ln (\prod_i F i) = \sum_i ln (F i) by case.
elim/big_rec2: _ => [|i x y _ [Hy E]]; first by split; [exact: Rlt_0_1 | exact: ln_1].
split; first exact: Rmult_lt_0_compat.
by toR; rewrite ln_mult // E.
Qed.

Lemma gauss_term n (L : 'M[R]_n) (nu r : 'cV[R]_n) :
  is_trig_mx L -> (forall i, (0 < L i i)%re) ->
  gauss_loglik r (invmx L^T *m nu) (invmx (L *m L^T)) =
  (\sum_(i < n) ln (L i i) - (/ 2)%re * nsq (L^T *m r - nu) - (INR n / 2 * ln (2 * PI))%re)%R.
Proof.
move=> Ht Hd. have Hu := trig_unit Ht Hd. have HuT : L^T \in unitmx by rewrite unitmx_tr.
rewrite /gauss_loglik invmxK.
have -> : qf (L *m L^T) (r - invmx L^T *m nu) = nsq (L^T *m r - nu).
  have := qf_gram (L^T) (r - invmx L^T *m nu). rewrite trmxK => ->.
  by rewrite mulmxBr mulmxA mulmxV // mul1mx.
have Hdet : (0 < \det L)%re by exact: trig_det_gt0.
have -> : ln (\det (invmx (L *m L^T))) = (- 2 * \sum_(i < n) ln (L i i))%re.
  rewrite det_inv det_mulmx det_tr.
  have H2 : (0 < \det L * \det L)%re by exact: Rmult_lt_0_compat.
  rewrite RinvE; last exact: Rgt_not_eq.
  rewrite ln_Rinv //.
  have -> : ln (\det L * \det L) = (ln (\det L) + ln (\det L))%re by exact: ln_mult.
  have -> : ln (\det L) = (\sum_(i < n) ln (L i i))%re by rewrite det_trig // ln_prod.
  hide_sums. toR. lra.
hide_sums. toR. eqR. field.
Qed.

(** ** Midpoints *)
Definition mid (w1 w2 : list R) : list R := map2 (fun a b => ((a + b) / 2)%re) w1 w2.
Lemma size_mid w1 w2 K : size w1 = K -> size w2 = K -> size (mid w1 w2) = K.
Proof. by rewrite !size_same => E1 E2; rewrite map2_length E1 E2 PeanoNat.Nat.min_id. Qed.
Lemma nth_mid w1 w2 K k : size w1 = K -> size w2 = K -> (k < K)%N ->
  nth 0 (mid w1 w2) k = (/ 2)%re * (nth 0 w1 k + nth 0 w2 k).
Proof.
rewrite !size_same => E1 E2 /ltP Hk. rewrite -!nth_same.
rewrite (@map2_nth _ _ _ _ w1 w2 k 0 0 0); [|rewrite E1 //|rewrite E2 //].
by apply: Rmult_comm.
Qed.
Lemma feasible_mid K w1 w2 : feasible K w1 -> feasible K w2 -> feasible K (mid w1 w2).
Proof.
move=> [S1 [P1 T1]] [S2 [P2 T2]]. split; first exact: size_mid.
split=> [k Hk|].
  rewrite (nth_mid S1 S2 Hk). move: (P1 k Hk) (P2 k Hk).
  move: (nth 0 w1 k) (nth 0 w2 k) => a b. toR => ? ?; lra.
rewrite (eq_bigr (fun k : 'I_K => (/ 2)%re * (nth 0 w1 k + nth 0 w2 k))) => [|k _]; last exact: (nth_mid S1 S2 (ltn_ord k)).
rewrite -mulr_sumr big_split /= T1 T2. toR. eqR. field.
Qed.

Lemma ln_le x y : (0 < x)%re -> (x <= y)%re -> (ln x <= ln y)%re.
Proof.
move=> Hx Hxy. case: (Rle_lt_or_eq_dec _ _ Hxy) => [H|->]; last exact: Rle_refl.
exact/Rlt_le/ln_increasing.
Qed.
Lemma ln_mid x y : (0 < x)%re -> (0 < y)%re -> (/ 2 * (ln x + ln y) <= ln (/ 2 * (x + y)))%re.
Proof.
move=> Hx Hy.
have H : (ln (x * y) <= ln ((/ 2 * (x + y)) * (/ 2 * (x + y))))%re.
  apply: ln_le; first exact: Rmult_lt_0_compat.
  have := Rle_0_sqr (x - y)%re. rewrite /Rsqr. lra.
rewrite (ln_mult x y) // in H. rewrite (ln_mult (/ 2 * (x + y)) (/ 2 * (x + y))) in H; lra.
Qed.

Section Opt.
  Context (n : nat) (sigmas : covs n) (means : option (mus n)) (returns : rets n).
  Let K := List.length sigmas.
  Let LA := RLA n K.
  Notation avgL := (avgL sigmas).
  Notation avgN := (avgN sigmas means).

  Lemma avgL_mid s w1 w2 : size w1 = K -> size w2 = K -> avgL s (mid w1 w2) = (/ 2)%re *: (avgL s w1 + avgL s w2).
  Proof.
    move=> S1 S2. rewrite /CombObj.avgL /avg_factor -big_split /= scaler_sumr. apply: eq_bigr => k _.
    by rewrite (nth_mid S1 S2 (ltn_ord k)) -scalerDl scalerA.
  Qed.
  Lemma wvec_mid w1 w2 : size w1 = K -> size w2 = K -> wvec K (mid w1 w2) = (/ 2)%re *: (wvec K w1 + wvec K w2).
  Proof. by move=> S1 S2; apply/colP => k; rewrite !mxE (nth_mid S1 S2 (ltn_ord k)). Qed.

  (** The lagged factors of the experts are Cholesky factors. *)
  Definition lagged_ok (pairs : list (Z * Z)) : Prop :=
    forall st, List.In st pairs -> forall k, (k < K)%N ->
      is_trig_mx (fac sigmas st.1 k) /\ forall i, (0 < fac sigmas st.1 k i i)%re.

  Lemma sum_list_le (T : Type) (l : list T) (F G : T -> R) :
    (forall x, List.In x l -> (F x <= G x)%re) -> (\sum_(x <- l) F x <= \sum_(x <- l) G x)%re.
  Proof.
    elim: l => [|a l IH] H; first by rewrite !big_nil; exact: Rle_refl.
    rewrite !big_cons. apply: Rplus_le_compat; first by apply: H; left.
    by apply: IH => x Hx; apply: H; right.
  Qed.

  Lemma logpart_mid pairs w1 w2 : lagged_ok pairs -> feasible K w1 -> feasible K w2 ->
    (/ 2 * ((\sum_(st <- pairs) \sum_(i < n) ln (avgL st.1 w1 i i)) +
            (\sum_(st <- pairs) \sum_(i < n) ln (avgL st.1 w2 i i)))
     <= \sum_(st <- pairs) \sum_(i < n) ln (avgL st.1 (mid w1 w2) i i))%re.
  Proof.
    move=> Hl F1 F2.
    have -> : (/ 2 * ((\sum_(st <- pairs) \sum_(i < n) ln (avgL st.1 w1 i i)) +
            (\sum_(st <- pairs) \sum_(i < n) ln (avgL st.1 w2 i i))))%re =
       \sum_(st <- pairs) \sum_(i < n) ((/ 2)%re * (ln (avgL st.1 w1 i i) + ln (avgL st.1 w2 i i))).
      change (((/ 2)%re * ((\sum_(st <- pairs) \sum_(i < n) ln (avgL st.1 w1 i i)) +
            (\sum_(st <- pairs) \sum_(i < n) ln (avgL st.1 w2 i i))))%R =
       \sum_(st <- pairs) \sum_(i < n) ((/ 2)%re * (ln (avgL st.1 w1 i i) + ln (avgL st.1 w2 i i)))).
      rewrite -big_split mulr_sumr; apply: eq_bigr => st _.
      by rewrite -big_split /= mulr_sumr.
    apply: sum_list_le => st Hst. apply: sumR_le => i _.
    rewrite avgL_mid; [|by case: F1|by case: F2]. rewrite !mxE. toR.
    apply: ln_mid; apply: avg_diag_pos => // k j Hk; by case: (Hl st Hst k Hk).
  Qed.

  Lemma wvec_inj w1 w2 : size w1 = K -> size w2 = K -> wvec K w1 = wvec K w2 -> w1 = w2.
  Proof.
    move=> S1 S2 E. apply: (@eq_from_nth _ 0); first by rewrite S1 S2.
    move=> k; rewrite S1 => Hk. by have := congr1 (fun v : 'cV[R]_K => v (Ordinal Hk) 0) E; rewrite !mxE.
  Qed.

  Lemma qf_mid (P : 'M[R]_K) (x y : 'cV[R]_K) : sym P ->
    qf P ((/ 2)%re *: (x + y)) = ((/ 2) * (qf P x + qf P y) - (/ 4) * qf P (x - y))%re.
  Proof.
    move=> Hs.
    have qfZ' : forall c z, qf P (c *: z) = (c * c * qf P z)%re.
      by move=> c z; rewrite /qf trZ -!scalemxAl -scalemxAr scalerA mxE.
    pose q := (x^T *m P *m y) 0 0.
    have Hxy : (y^T *m P *m x) 0 0 = q.
      by rewrite -[in LHS]Hs -[x in LHS]trmxK -mulmxA -trmx_mul -trmx_mul mxE.
    rewrite qfZ'. have -> : qf P (x + y) = (qf P x + q + (q + qf P y))%re.
      by rewrite /qf trD !mulmxDl !mulmxDr !addE Hxy -/q [X in _ + X]addrC [X in _ + X]addrC.
    have -> : qf P (x - y) = (qf P x - q - (q - qf P y))%re.
      by rewrite /qf trB !mulmxBl !mulmxBr !subE Hxy -/q.
    move: (qf P x) (qf P y) => a b. move: (q : R) => c. eqR. field.
  Qed.

  (** C20: at most one optimal weight vector. *)
  Lemma opt_unique pairs P w1 w2 : lagged_ok pairs ->
    l_cholK LA (pairs_quad LA sigmas means returns pairs) = Some P ->
    optimal (n := n) (K := K) (pairs_diag LA sigmas pairs, P) w1 ->
    optimal (n := n) (K := K) (pairs_diag LA sigmas pairs, P) w2 -> w1 = w2.
  Proof.
    move=> Hl HP [F1 O1] [F2 O2].
    have HK : (0 < K)%N.
      rewrite lt0n; apply/eqP => E. case: F1 => _ [_]; rewrite E big_ord0; toR => ?; lra.
    have S1 : size w1 = K by case: F1. have S2 : size w2 = K by case: F2.
    have [_ [_ E]] := chol_is_chol (quad_sym sigmas means returns pairs) HP.
    set Q := pairs_quad LA sigmas means returns pairs in HP E.
    have HQ : spd (Q : 'M[R]_K) by apply: is_chol_spd; apply: chol_is_chol HP; apply: quad_sym.
    have Hobj : forall w, objective (n := n) (K := K) (rows_of (pairs_diag LA sigmas pairs, P)) (pairs_diag LA sigmas pairs, P) w =
       ((\sum_(st <- pairs) \sum_(i < n) ln (avgL st.1 w i i)) - / 2 * qf (Q : 'M[R]_K) (wvec K w))%re.
      move=> w. rewrite (objective_closed _ HK HP) /term sumrB. congr (_ - _)%re.
      by rewrite -mulr_sumr /Q quad_gram.
    apply: wvec_inj => //. apply/eqP; rewrite -subr_eq0; apply/eqP. apply: Classical_Prop.NNPP => /eqP Hne.
    have Hpos := proj2 HQ _ Hne.
    have Fm := feasible_mid F1 F2.
    have Hm := logpart_mid Hl F1 F2.
    have := O1 _ Fm; have := O2 _ Fm. rewrite !Hobj wvec_mid // qf_mid; last exact: quad_sym.
    move: Hm Hpos. hide_sums. move: (qf _ _) (qf _ _) (qf _ _) => a b d. lra.
  Qed.
End Opt.
