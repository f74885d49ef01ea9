(** * Risk parity. *)
From Coq Require Import Reals ZArith String List Lia Lra Classical.
Set Warnings "-notation-overridden,-ambiguous-paths".
From mathcomp Require Import all_ssreflect all_algebra.
From mathcomp.zify Require Import zify_ssreflect.
From Verif Require Import RStruct MatR Spec EwmaReal Simplex Compact CombExist Spectral Num Py Trader SpecTrader TraderLists TraderOpt TraderBt TraderCalc LowRankProps TraderPort.
Set Implicit Arguments.
Unset Strict Implicit.
Unset Printing Implicit Defensive.
Import GRing.Theory.
Local Open Scope ring_scope.
Delimit Scope R_scope with re.

Lemma dmxE m p i0 j0 i j : (delta_mx i0 j0 : 'M[R]_(m, p)) i j = ((i == i0) && (j == j0))%:R.
Proof. by rewrite mxE. Qed.

Lemma parity_step (p p' q q' c : R) : (0 < p -> 0 < p' -> 0 < c -> p * q = c -> p' * q' = c -> (p - p') * (q - q') <= 0)%re.
Proof.
  move=> H1 H2 Hc H3 H4. have -> : (q = c * / p)%re by rewrite -H3; field; lra. have -> : (q' = c * / p')%re by rewrite -H4; field; lra.
  have -> : ((p - p') * (c * / p - c * / p') = - (((p - p') * (p - p')) * (c * / p * / p')))%re by field; lra.
  have I2 := Rinv_0_lt_compat _ H1. have I3 := Rinv_0_lt_compat _ H2.
  have := Rmult_le_pos _ _ (Rle_0_sqr (p - p')) (Rlt_le _ _ (Rmult_lt_0_compat _ _ (Rmult_lt_0_compat _ _ Hc I2) I3)). rewrite /Rsqr. lra.
Qed.

Section Parity.
  Context (n : nat) (S : 'M[R]_n).
  Hypothesis Hn : (0 < n)%N.
  Hypothesis HS : spd S.
  Notation vec := 'cV[R]_n.
  Definition pf (z : vec) : R := (/ 2 * vol S z - (\sum_i ln (z i 0))%R / INR n)%re.
  Definition ppos (z : vec) : Prop := forall i, Rlt 0 (z i ord0).
  Let nn := INR n.
  Lemma nn_pos : (0 < nn)%re.
  Proof. apply: lt_0_INR. lia. Qed.
  Lemma ppos_nz z : ppos z -> z != 0.
  Proof. move=> H. apply/eqP => E. have := H (Ordinal Hn). rewrite E mxE. toR. lra. Qed.

  Lemma qf_step z i h : qf S (z + h *: delta_mx i 0) = (qf S z + 2 * ((S *m z) i ord0) * h + S i i * h * h)%re.
  Proof.
    have E1 : (z^T *m S *m (delta_mx i 0 : vec)) 0 0 = (S *m z) i 0.
      have -> : z^T *m S = (S *m z)^T by rewrite trmx_mul (proj1 HS). rewrite [LHS]mxE (bigD1 i) //= big1; last first.
        by move=> j Hj; rewrite dmxE (negbTE Hj) /= mulr0.
      by rewrite dmxE !eqxx /= mulr1 addr0 mxE.
    have E2 : ((delta_mx i 0 : vec)^T *m S *m z) 0 0 = (S *m z) i 0.
      rewrite trmx_delta -mulmxA [LHS]mxE (bigD1 i) //= big1; last by move=> j Hj; rewrite dmxE (negbTE Hj) andbF mul0r.
      by rewrite dmxE !eqxx mul1r addr0.
    rewrite /qf trD trZ !mulmxDl !mulmxDr -!scalemxAl -!scalemxAr !addE !scaleE E1 E2 -/(qf S z) -/(qf S (delta_mx i 0)) qf_delta.
    move: (qf S z) ((S *m z) i 0) (S i i) => a b c. Rring.
  Qed.
  Lemma sum_ln_step z i h : ppos z -> (\sum_j ln ((z + h *: delta_mx i 0)%R j 0) = (\sum_(j | j != i) ln (z j 0)) + ln (z i 0 + h))%R.
  Proof.
    move=> Hz. rewrite (bigD1 i) //= addrC. congr (_ + _).
    - apply: eq_bigr => j Hj. by rewrite addE scaleE dmxE (negbTE Hj) mulr0 addr0.
    - by rewrite addE scaleE dmxE !eqxx mulr1.
  Qed.
  Lemma parity_equal z : minimiser pf ppos z -> forall i, z i 0 * (S *m z) i 0 = (2 * vol S z / nn)%re.
  Proof.
    move=> [Hz Hmin] i. apply: (@parity_foc (qf S z) ((S *m z) i 0) (S i i) (z i 0) nn (\sum_(j | j != i) ln (z j 0))%R).
    - apply: (proj2 HS). exact: ppos_nz.
    - exact: Hz.
    - exact: nn_pos.
    - move=> h Hh. have Hp : ppos (z + h *: delta_mx i 0).
        move=> j. rewrite addE scaleE dmxE. case: (altP (j =P i)) => [->|Hj] /=.
        - rewrite mulr1. have := Hz i. toR. change (z i ord0) with (z i 0). lra.
        - rewrite mulr0 addr0. exact: Hz.
      have := Hmin _ Hp. rewrite /pf /vol qf_step sum_ln_step // -/nn.
      have -> : (\sum_j ln (z j 0) = (\sum_(j | j != i) ln (z j 0)) + ln (z i 0))%R by rewrite (bigD1 i) //= addrC.
      by [].
  Qed.
  Lemma qf_contrib z : qf S z = \sum_i z i 0 * (S *m z) i 0.
  Proof. rewrite /qf -mulmxA mxE. by apply: eq_bigr => i _; rewrite mxE. Qed.
  Lemma parity_norm z : minimiser pf ppos z -> let s := (\sum_i z i 0)%R in Rlt 0 s /\ risk_parity S ((/ s)%re *: z).
  Proof.
    move=> Hm s. have [Hz _] := Hm. have Hnz := ppos_nz Hz. have Hs : Rlt 0 s by apply: sum_pos => // i; apply: Rlt_le; exact: Hz.
    split=> //. have His := Rinv_0_lt_compat _ Hs. split; [|split].
    - move=> i. rewrite scaleE. exact: (Rmult_lt_0_compat _ _ His (Hz i)).
    - rewrite sumZ -/s. toR. eqR. field. lra.
    - have E i : ((/ s)%re *: z) i 0 * (S *m ((/ s)%re *: z)) i 0 = (/ s * / s * (2 * vol S z / nn))%re.
        rewrite -scalemxAr !scaleE. have := parity_equal Hm i. move: (z i 0) ((S *m z) i 0) => p q. toR. move=> <-. eqR. ring.
      move=> i. rewrite E qf_contrib. under eq_bigr do rewrite E. rewrite sumr_const card_ord.
      have -> : forall (c : R) (k : nat), c *+ k = (INR k * c)%re.
        move=> c. elim=> [|k IH]; first by rewrite mulr0n /=; toR; eqR; ring. rewrite mulrS IH S_INR. Rring.
      have := nn_pos. rewrite -/nn => H. toR. eqR. field. split; lra.
  Qed.
  Lemma parity_unique w w' : risk_parity S w -> risk_parity S w' -> w = w'.
  Proof.
    move=> [P1 [S1 C1]] [P2 [S2 C2]]. have Hnn := nn_pos.
    have V1 := vol_gt0 HS (ppos_nz P1). have V2 := vol_gt0 HS (ppos_nz P2).
    have Hunit (y : vec) : Rlt 0 (vol S y) -> (forall i, y i 0 * (S *m y) i 0 = (qf S y / INR n)%re) ->
      forall i, ((/ vol S y)%re *: y) i 0 * (S *m ((/ vol S y)%re *: y)) i 0 = (/ nn)%re.
      move=> V C i. rewrite -scalemxAr !scaleE. have := C i. rewrite -(vol_sq HS). move: (y i 0) ((S *m y) i 0) V => p q V. toR. move=> H.
      have -> : (/ vol S y * p * (/ vol S y * q) = (p * q) * (/ vol S y * / vol S y))%re by ring. rewrite H -/nn. eqR. field. split; lra.
    set z := (/ vol S w)%re *: w. set z' := (/ vol S w')%re *: w'.
    have Z1 := Hunit _ V1 C1. have Z2 := Hunit _ V2 C2. rewrite -/z in Z1. rewrite -/z' in Z2.
    have Pz : ppos z by move=> i; rewrite /z scaleE; exact: (Rmult_lt_0_compat _ _ (Rinv_0_lt_compat _ V1) (P1 i)).
    have Pz' : ppos z' by move=> i; rewrite /z' scaleE; exact: (Rmult_lt_0_compat _ _ (Rinv_0_lt_compat _ V2) (P2 i)).
    have Ez : z = z'.
      apply: NNPP => Hne. have Hd : z - z' != 0 by rewrite subr_eq0; apply/eqP. have := proj2 HS _ Hd. rewrite qf_contrib.
      apply: Rle_not_lt. have -> : (0%re = \sum_(i < n) 0)%R by rewrite big1. apply: sumR_le => i _.
      rewrite mulmxBr !subE. apply: (@parity_step _ _ _ _ (/ nn)%re (Pz i) (Pz' i) _ (Z1 i) (Z2 i)). exact: Rinv_0_lt_compat.
    have Hsum : (/ vol S w = / vol S w')%re.
      have := congr1 (fun y : vec => (\sum_i y i 0)%R) Ez. rewrite /z /z' !sumZ S1 S2 !mulr1. by [].
    have Hi := Rinv_0_lt_compat _ V1. apply: (@scalerI _ _ (/ vol S w)%re); first by apply/eqP; toR; lra.
    rewrite -/z Ez /z' Hsum. by [].
  Qed.

  (** *** Existence. *)
  Lemma sum_const (c : R) : (\sum_(i < n) c)%R = (nn * c)%re.
  Proof.
    rewrite sumr_const card_ord /nn. move: n => k. elim: k => [|k IH]; first by rewrite mulr0n /=; toR; eqR; ring. rewrite mulrS IH S_INR. Rring.
  Qed.
  Lemma entry_vol : exists k, Rlt 0 k /\ forall (z : vec) i, Rle (k * Rabs (z i ord0)) (vol S z).
  Proof.
    have [c [Hc Hco]] := qf_coercive HS. exists (sqrt c). split; first exact: sqrt_lt_R0. move=> z i.
    rewrite -(sqrt_Rsqr_abs (z i ord0)) -sqrt_mult_alt; last exact: Rlt_le. apply: sqrt_le_1_alt. apply: Rle_trans (Hco z).
    apply: Rmult_le_compat_l; first exact: Rlt_le. rewrite nsqE (bigD1 i) //=. set X := BigOp.bigop _ _ _.
    have : (0 <= X)%re by apply: sumR_ge0 => j _; exact: Rle_0_sqr. rewrite /Rsqr. change (z i ord0) with (z i 0). move: X (z i 0) => X y. toR. lra.
  Qed.
  Lemma ln_lin (al u : R) : (0 < al -> 0 < u -> ln u <= al * u + (- 1 - ln al))%re.
  Proof. move=> Ha Hu. have := ln_le_lin (al * u) (Rmult_lt_0_compat _ _ Ha Hu). rewrite ln_mult //. lra. Qed.

  Lemma parity_exists : exists z, minimiser pf ppos z.
  Proof.
    have [k [Hk Hkv]] := entry_vol. have Hnn := nn_pos.
    pose al := (k / 4)%re. have Hal : Rlt 0 al by rewrite /al; lra.
    pose be := (- 1 - ln al)%re.
    pose one := (const_mx 1 : vec). have H1 : ppos one by move=> i; rewrite mxE; toR; lra.
    pose f0 := pf one. pose B := (4 * (f0 + be))%re.
    pose de := exp (- (nn * (f0 + B / 4 + Rabs be)))%re. have Hde : Rlt 0 de by exact: exp_pos.
    have Hln z i : ppos z -> Rle (ln (z i ord0)) (vol S z / 4 + be)%re.
      move=> Hz. apply: Rle_trans (ln_lin Hal (Hz i)) _. rewrite -/be. have := Hkv z i. rewrite Rabs_pos_eq; last by apply: Rlt_le; exact: Hz. rewrite /al. lra.
    have Hsub z : ppos z -> Rle (pf z) f0 -> Rle (vol S z) B /\ forall i, Rle de (z i ord0).
      move=> Hz Hle.
      have Hsum : Rle (\sum_i ln (z i 0))%R (nn * (vol S z / 4 + be))%re by rewrite -sum_const; apply: sumR_le => i _; exact: Hln.
      have Hdiv : Rle ((\sum_i ln (z i 0))%R / nn) (vol S z / 4 + be).
        apply: (Rmult_le_reg_l nn) => //. have -> : forall y, (nn * (y / nn) = y)%re by move=> y; field; lra. exact: Hsum.
      have HB : Rle (vol S z) B by move: Hle; rewrite /pf /B -/nn; lra.
      split=> // i.
      have Hsi : Rle (\sum_(j | j != i) ln (z j 0))%R (nn * (B / 4 + Rabs be))%re.
        apply: Rle_trans (_ : Rle (\sum_(j | j != i) (B / 4 + Rabs be)%re)%R _).
          apply: sumR_le => j _. apply: Rle_trans (Hln z j Hz) _. have := Rle_abs be. lra.
        rewrite -sum_const. rewrite [X in Rle _ X](bigD1 i) //=. set X := BigOp.bigop _ _ _.
        have HB0 : Rle 0 B by apply: Rle_trans HB; exact: vol_ge0. have := Rabs_pos be. move: X => X. toR. lra.
      have : Rle (- (nn * (f0 + B / 4 + Rabs be))) (ln (z i ord0)).
        have Hv := vol_ge0 S z. move: Hle. rewrite /pf -/nn (bigD1 i) //=. change (z i 0) with (z i ord0).
        move: Hsi. move: (\sum_(j | j != i) ln (z j 0))%R (ln (z i ord0)) => X y HX. toR. move=> Hle.
        have : Rle ((/ 2 * vol S z - (y + X) / nn) * nn) (f0 * nn) by apply: Rmult_le_compat_r => //; lra.
        have -> : ((/ 2 * vol S z - (y + X) / nn) * nn = / 2 * vol S z * nn - (y + X))%re by field; lra.
        have := Rmult_le_pos _ _ Hv (Rlt_le _ _ Hnn). lra.
      move=> Hge. rewrite /de -[z i ord0]exp_ln; last exact: Hz. case: Hge => [Hge|->]; [by left; exact: exp_increasing|by right].
    have [||||z [[HzB Hzd] Hmin]] := @min_exists_bd n S pf (fun z => Rle (vol S z) B /\ forall i, Rle de (z i ord0)) B HS.
    - apply: closed_and; first by apply: (@closed_le n (fun z => vol S z)) => w; exact: cont_vol.
      apply: closed_all => i. apply: (@closed_ge n (fun z => z i ord0)) => w. exact: cont_entry.
    - move=> w [_ Hw]. apply: (cont_ext n (fun w => (/ 2 * vol S (vec_of n w) + (- / nn) * (\sum_i ln (vec_of n w i 0))%R)%re)).
        move=> v. rewrite /pf /nn /Rdiv. ring.
      apply: cont_plus; first by apply: cont_scal; exact: cont_vol. apply: cont_scal. apply: cont_sum => i. apply: cont_ln; first exact: cont_entry.
      apply: Rlt_le_trans Hde _. exact: Hw.
    - by move=> w [].
    - exists one. apply: Hsub => //. exact: Rle_refl.
    - exists z. have Hz : ppos z by move=> i; apply: Rlt_le_trans Hde (Hzd i). split=> // y Hy.
      case: (Rle_dec (pf y) f0) => H; first by apply: Hmin; exact: Hsub.
      apply: Rle_trans (_ : Rle (pf one) _); last by apply: Rlt_le; exact: Rnot_le_lt. apply: Hmin. apply: Hsub => //. exact: Rle_refl.
  Qed.
End Parity.
