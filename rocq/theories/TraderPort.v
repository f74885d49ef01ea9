(** * Maximum diversification and risk parity. *)
From Coq Require Import Reals ZArith String List Lia Lra Classical.
Set Warnings "-notation-overridden,-ambiguous-paths".
From mathcomp Require Import all_ssreflect all_algebra.
From mathcomp.zify Require Import zify_ssreflect.
From Verif Require Import RStruct MatR Spec EwmaReal Simplex Compact CombExist Spectral Num Py Trader SpecTrader TraderLists TraderOpt TraderBt TraderCalc LowRankProps.
Set Implicit Arguments.
Unset Strict Implicit.
Unset Printing Implicit Defensive.
Import GRing.Theory.
Local Open Scope ring_scope.
Delimit Scope R_scope with re.

Section Diverse.
  Context (n : nat) (S : 'M[R]_n).
  Hypothesis HS : spd S.
  Notation vec := 'cV[R]_n.
  Notation sd := (\col_i sqrt (S i i) : vec).
  Lemma diag_pos i : (0 < S i i)%re.
  Proof. have := proj2 HS (delta_mx i 0). rewrite qf_delta. apply. apply/eqP => /colP /(_ i). rewrite !mxE !eqxx => /eqP. by rewrite oner_eq0. Qed.
  Lemma sd_pos i : (0 < sd i ord0)%re.
  Proof. rewrite mxE. apply: sqrt_lt_R0. exact: diag_pos. Qed.
  Lemma dotpZ (a : vec) c z : dotp a (c *: z) = (c * dotp a z)%re.
  Proof. rewrite /dotp. toR. under eq_bigr do rewrite scaleE mulrCA. by rewrite -big_distrr. Qed.
  Lemma sumZ c (z : vec) : (\sum_i (c *: z) i 0 = c * \sum_i z i 0)%R.
  Proof. under eq_bigr do rewrite scaleE. by rewrite -big_distrr. Qed.
  Lemma weighted_pos (z : vec) : (forall i, Rle 0 (z i ord0)) -> z != 0 -> Rlt 0 (dotp sd z).
  Proof.
    move=> Hz Hnz. have [i Hi] : exists i, z i ord0 <> R0.
      apply: NNPP => H. case/negP: Hnz. apply/eqP/colP => i. rewrite [RHS]mxE. apply: NNPP => Hi. apply: H. exists i. exact: Hi.
    apply: (@sumR_gt0 _ _ i).
    - move=> j. apply: Rmult_le_pos; [apply: Rlt_le; exact: sd_pos|exact: Hz].
    - apply: Rmult_lt_0_compat; first exact: sd_pos. have := Hz i. have H := Hi. move=> [//|H2]. by case: H.
  Qed.
  Lemma sum_pos (z : vec) : (forall i, Rle 0 (z i ord0)) -> z != 0 -> Rlt 0 (\sum_i z i 0)%R.
  Proof.
    move=> Hz Hnz. have [i Hi] : exists i, z i ord0 <> R0.
      apply: NNPP => H. case/negP: Hnz. apply/eqP/colP => i. rewrite [RHS]mxE. apply: NNPP => Hi. apply: H. exists i. exact: Hi.
    apply: (@sumR_gt0 _ _ i) => //. have := Hz i. move=> [//|H2]. by case: Hi.
  Qed.
  Definition md_feasible M (z : vec) : Prop := (forall i, Rle 0 (z i ord0)) /\ (forall i, Rle (z i ord0) (M * (\sum_j z j 0)%R)%re) /\ dotp sd z = 1.
  Lemma md_nz M z : md_feasible M z -> z != 0.
  Proof. move=> [_ [_ H]]. apply/eqP => E. move: H. rewrite E /dotp big1; last by move=> i _; rewrite [X in _ * X]mxE mulr0. toR. lra. Qed.
  (** Normalising and un-normalising. *)
  Lemma md_norm M z : md_feasible M z -> let s := (\sum_i z i 0)%R in Rlt 0 s /\ long_cap M ((/ s)%re *: z) /\ div_ratio S ((/ s)%re *: z) = (/ vol S z)%re.
  Proof.
    move=> HF. have Hnz := md_nz HF. have [H0 [H1 H2]] := HF. move=> s. have Hs : Rlt 0 s by exact: sum_pos. have His := Rinv_0_lt_compat _ Hs.
    have Hv := vol_gt0 HS Hnz. split=> //. split.
    - split; [|split].
      + move=> i. rewrite scaleE. exact: (Rmult_le_pos _ _ (Rlt_le _ _ His) (H0 i)).
      + rewrite sumZ -/s. toR. eqR. field. lra.
      + move=> i. rewrite scaleE. apply: (Rmult_le_reg_l s) => //. have := H1 i. rewrite -/s. toR. move=> H.
        have -> : (s * (/ s * z i ord0) = z i ord0)%re by field; lra. rewrite Rmult_comm. exact: H.
    - rewrite /div_ratio volZ Rabs_pos_eq; last lra. have -> : (\sum_i sqrt (S i i) * ((/ s)%re *: z) i 0 = dotp sd ((/ s)%re *: z))%R.
        by apply: eq_bigr => i _; rewrite [in RHS]mxE. rewrite dotpZ H2. toR. eqR. field. lra.
  Qed.
  Lemma md_unnorm M w : long_cap M w -> let d := dotp sd w in Rlt 0 d /\ md_feasible M ((/ d)%re *: w) /\ vol S ((/ d)%re *: w) = (/ div_ratio S w)%re /\ Rlt 0 (div_ratio S w).
  Proof.
    move=> [H0 [H1 H2]]. have Hnz : w != 0 by apply/eqP => E; move: H1; rewrite E big1; [toR; lra|by move=> i _; rewrite mxE].
    move=> d. have Hd : Rlt 0 d by exact: weighted_pos. have Hid := Rinv_0_lt_compat _ Hd. have Hv := vol_gt0 HS Hnz. split=> //.
    have Ed : (\sum_i sqrt (S i i) * w i 0)%R = d by apply: eq_bigr => i _; rewrite [in RHS]mxE.
    split; [split; [|split]|split].
    - move=> i. rewrite scaleE. exact: (Rmult_le_pos _ _ (Rlt_le _ _ Hid) (H0 i)).
    - move=> i. rewrite scaleE sumZ H1 mulr1. have := H2 i. move=> H. have := Rmult_le_compat_l _ _ _ (Rlt_le _ _ Hid) H. toR. rewrite (Rmult_comm M). by [].
    - rewrite dotpZ -/d. toR. eqR. field. lra.
    - rewrite volZ Rabs_pos_eq; last lra. rewrite /div_ratio Ed. toR. field. lra.
    - rewrite /div_ratio Ed. exact: Rdiv_lt_0_compat.
  Qed.
  Lemma md_optimal M z : minimiser (vol S) (md_feasible M) z -> let w := (/ (\sum_i z i 0)%R)%re *: z in
    long_cap M w /\ forall w', long_cap M w' -> Rle (div_ratio S w') (div_ratio S w).
  Proof.
    move=> [HF Hmin] w. have [Hs [Hlc Hr]] := md_norm HF. split=> // w' Hw'. rewrite /w Hr.
    have [Hd [HF' [Ev Hp]]] := md_unnorm Hw'. have := Hmin _ HF'. rewrite Ev => Hle. have Hv := vol_gt0 HS (md_nz HF).
    rewrite -[X in (X <= _)%re]Rinv_inv. apply: Rinv_le_contravar => //.
  Qed.
  Lemma md_exists M : (exists w : vec, long_cap M w) -> exists z, minimiser (vol S) (md_feasible M) z.
  Proof.
    move=> [w Hw]. apply: min_exists => //.
    - apply: closed_and; [|apply: closed_and].
      + apply: closed_all => i. apply: (@closed_ge n (fun w => w i 0)) => v. exact: cont_entry.
      + apply: closed_all => i w0 H0. have Hc : closed (fun w : vec => Rle (w i 0 - M * (\sum_j w j 0))%R 0).
          apply: (@closed_le n (fun w => (w i 0 - M * (\sum_j w j 0))%R)) => v.
          apply: (cont_ext n (fun v => (vec_of n v i 0%R + (- M) * (\sum_j vec_of n v j 0)%R)%re)).
            move=> u. move: (vec_of n u i 0) (\sum_j _)%R => p q. toR. ring.
          apply: cont_plus; first exact: cont_entry. apply: cont_scal. apply: cont_sum => j. exact: cont_entry.
        have [|d [Hd Hn]] := Hc w0. move=> H. apply: H0. move: H. move: (\sum_j _)%R (vec_of n w0 i 0) => q p. toR. lra.
        exists d. split=> // w' Hw'. move=> H. apply: (Hn w' Hw'). move: H. move: (\sum_j _)%R (vec_of n w' i 0) => q p. toR. lra.
      + apply: (@closed_equ n (fun w => dotp sd w)) => v. apply: cont_sum => i. apply: cont_scal. exact: cont_entry.
    - have [_ [H _]] := md_unnorm Hw. by eexists; exact: H.
  Qed.
End Diverse.
