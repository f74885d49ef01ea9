(** * The lasso problem has a solution for every penalty that is not negative. *)
From Coq Require Import Reals Lra ZArith String List Lia.
Set Warnings "-notation-overridden,-ambiguous-paths".
From mathcomp Require Import all_ssreflect all_algebra.
From mathcomp.zify Require Import zify_ssreflect.
From Verif Require Import RStruct MatR Num Py ListFacts Spec EwmaReal Simplex Compact Spectral Combination CombPerm CombFacts Trader SpecTrader TraderLists TraderOpt TraderBt TraderMain BacktestProps BacktestMain RetComb SpecRet RetEwm RetRidge RetFit RetMain RetInv RetLasso.
Set Implicit Arguments.
Unset Strict Implicit.
Unset Printing Implicit Defensive.
Import GRing.Theory.
Local Open Scope ring_scope.
Delimit Scope R_scope with re.
Delimit Scope Z_scope with z.

Section Squares.
  Context (m K : nat) (A : 'M[R]_(m, K)).
  Lemma sq0 p (v : 'rV[R]_p) : v *m v^T = 0 -> v = 0.
  Proof.
    move=> /matrixP /(_ 0 0). rewrite mxE [RHS]mxE => H. apply/rowP => j. rewrite mxE.
    have H0 : forall i, (0 <= v 0%R i * v^T i 0%R)%re by move=> i; rewrite mxE; exact: Rle_0_sqr.
    have Hj : (v 0%R j * v 0%R j = 0)%re.
      move: H. rewrite (bigD1 j) //=. have : (0 <= (\sum_(i < p | i != j) v 0 i * v^T i 0)%R)%re by apply: sumR_ge0 => i _; exact: H0.
      have := H0 j. rewrite [v^T j 0]mxE. move: (\sum_(i < p | _) _) => X. toR. lra.
    by case: (Rmult_integral _ _ Hj).
  Qed.
  Lemma gram_sub : (A <= A^T *m A)%MS.
  Proof.
    have H := submxMl A^T A. have E : \rank (A^T *m A) = \rank A.
      have := mxrank_mul_ker A^T A. have -> : (A^T :&: kermx A)%MS = 0.
        apply/eqP. rewrite -submx0. apply/rV_subP => v. rewrite sub_capmx => /andP [/submxP [u Eu] /sub_kermxP Ev]. rewrite submx0. apply/eqP/sq0.
        by rewrite [X in _ *m X^T]Eu trmx_mul trmxK mulmxA Ev mul0mx.
      by rewrite mxrank0 addn0 mxrank_tr.
    have := mxrank_leqif_eq H. rewrite E => -[_ /esym]. rewrite eqxx => /eqmxP E2. by rewrite E2.
  Qed.
  (** The normal equations have a solution. *)
  Lemma normal_eq (y : 'cV[R]_m) : exists w : 'cV[R]_K, A^T *m (y - A *m w) = 0.
  Proof.
    have /submxP [D ED] : (y^T *m A <= A^T *m A)%MS := submx_trans (submxMl _ _) gram_sub.
    exists D^T. apply: trmx_inj. rewrite trmx_mul trmxK linearB /= trmx_mul trmxK mulmxBl -mulmxA ED subrr trmx0. by [].
  Qed.
End Squares.

Section Exists.
  Context (m K : nat).
  Notation vec := 'cV[R]_K.
  Definition las (alpha : R) (y : 'I_m -> R) (x : 'I_m -> vec) (w : vec) : R :=
    \sum_j (y j - dotp (x j) w) * (y j - dotp (x j) w) + alpha * \sum_k Rabs (w k 0).
  Lemma las_zero y x : exists w, forall w', (las 0 y x w <= las 0 y x w')%re.
  Proof.
    pose A : 'M[R]_(m, K) := \matrix_(j, k) x j k 0. have [w Hw] := normal_eq A (\col_j y j). exists w => w'.
    have EA v j : (A *m v) j 0 = dotp (x j) v by rewrite mxE /dotp; apply: eq_bigr => k _; rewrite mxE.
    have Hk k : \sum_j x j k 0 * (y j - dotp (x j) w) = 0.
      move/colP/(_ k): Hw. rewrite mxE [RHS]mxE => H. rewrite -[RHS]H. apply: eq_bigr => j _. rewrite -EA. congr (_ * _); by rewrite !mxE.
    have Hc : \sum_j (y j - dotp (x j) w) * (dotp (x j) w' - dotp (x j) w) = 0.
      transitivity (\sum_k (w' k 0 - w k 0) * \sum_j x j k 0 * (y j - dotp (x j) w)); last by rewrite big1 // => k _; rewrite Hk mulr0.
      under [RHS]eq_bigr do rewrite big_distrr. rewrite exchange_big /=. apply: eq_bigr => j _. rewrite [X in _ * (X - _)]/dotp [X in _ * (_ - X)]/dotp -sumrB big_distrr /=. apply: eq_bigr => k _.
      move: (y j - _) (x j k 0) (w' k 0) (w k 0) => p q r s. toR. ring.
    have E : las 0 y x w' = las 0 y x w + \sum_j (dotp (x j) w' - dotp (x j) w) * (dotp (x j) w' - dotp (x j) w) - 2%re * \sum_j (y j - dotp (x j) w) * (dotp (x j) w' - dotp (x j) w).
      have E0 v : las 0 y x v = \sum_j (y j - dotp (x j) v) * (y j - dotp (x j) v) by rewrite /las; move: (\sum_j _) (\sum_k _) => p q; toR; ring.
      rewrite !E0 big_distrr -big_split -sumrB /=. apply: eq_bigr => j _. move: (y j) (dotp _ w') (dotp _ w) => p q r. toR. ring.
    rewrite E Hc mulr0 subr0. have : (0 <= (\sum_j (dotp (x j) w' - dotp (x j) w) * (dotp (x j) w' - dotp (x j) w))%R)%re by apply: sumR_ge0 => j _; exact: Rle_0_sqr.
    move: (\sum_j _) (las _ _ _ _) => p q. toR. lra.
  Qed.
  Lemma vol_l1 (a : R) (w : vec) : (0 < a)%re -> (vol ((a * a)%re%:M) w <= a * (\sum_k Rabs (w k 0))%R)%re.
  Proof.
    move=> Ha. rewrite /vol. set s := \sum_k _. have Hs : (0 <= s)%re by apply: sumR_ge0 => k _; exact: Rabs_pos.
    have -> : (a * s = sqrt ((a * s) * (a * s)))%re by rewrite sqrt_square //; apply: Rmult_le_pos; [lra|].
    apply: sqrt_le_1_alt. have -> : qf ((a * a)%re%:M) w = (a * a * (\sum_k w k 0 * w k 0)%R)%re.
      rewrite /qf mul_mx_scalar -scalemxAl mxE. toR. congr Rmult. rewrite mxE. apply: eq_bigr => k _. by rewrite mxE.
    have -> : (a * s * (a * s) = a * a * (s * s))%re by ring. apply: Rmult_le_compat_l; first exact: Rle_0_sqr.
    have H k : (Rabs (w k 0%R) <= s)%re.
      rewrite /s (bigD1 k) //=. set X := BigOp.bigop _ _ _. have : (0 <= X)%re by apply: sumR_ge0 => j _; exact: Rabs_pos. move: X => X. toR. lra.
    have -> : (s * s = (\sum_k Rabs (w k 0) * s)%R)%re by rewrite -[RHS]big_distrl. apply: sumR_le => k _.
    rewrite -[(w k 0 * w k 0)%R]/(w k 0%R * w k 0%R)%re -(Rabs_pos_eq (w k 0%R * w k 0%R)%re); last exact: Rle_0_sqr. rewrite Rabs_mult. apply: Rmult_le_compat_l; [exact: Rabs_pos|exact: H].
  Qed.
  Lemma las_exists alpha y x : (0 <= alpha)%re -> exists w, forall w', (las alpha y x w <= las alpha y x w')%re.
  Proof.
    case=> [Ha|<-]; last exact: las_zero.
    have HS : spd ((alpha * alpha)%re%:M : 'M[R]_K).
      split; first by rewrite /sym tr_scalar_mx. move=> v Hv. rewrite /qf mul_mx_scalar -scalemxAl mxE. apply: Rmult_lt_0_compat; first exact: Rmult_lt_0_compat.
      have [Hle|] := Rtotal_order ((v^T *m v) 0 0)%R 0%re; last by case=> [E|//]; case/negP: Hv; apply/eqP; apply: trmx_inj; rewrite trmx0; apply: sq0; rewrite trmxK; apply/matrixP => i j; rewrite !ord1 E mxE.
      exfalso. move: Hle. apply: Rle_not_lt. rewrite mxE. apply: sumR_ge0 => k _. rewrite mxE. exact: Rle_0_sqr.
    have [||||w [_ Hw]] := @min_exists_gen K _ (las alpha y x) (fun _ => True) HS; [| | |by exists 0|].
    - by move=> w [].
    - move=> v. rewrite /las. apply: cont_plus; last by apply: cont_scal; apply: cont_sum => k; apply: cont_abs; exact: cont_entry.
      apply: cont_sum => j. apply: cont_sq. apply: (cont_ext K (fun v => (y j + (-1) * dotp (x j) (vec_of K v))%re)); first by move=> u; toR; ring.
      apply: cont_plus; first exact: cont_const. apply: cont_scal. apply: cont_sum => k. apply: cont_scal. exact: cont_entry.
    - move=> w _. apply: Rle_trans (vol_l1 w Ha) _. rewrite /las. have : (0 <= (\sum_j (y j - dotp (x j) w) * (y j - dotp (x j) w))%R)%re by apply: sumR_ge0 => j _; exact: Rle_0_sqr.
      move: (\sum_j _) (\sum_k _) => p q. toR. lra.
    - exists w => w'. exact: Hw I.
  Qed.
End Exists.

Section Total.
  Context (K : nat).
  Notation vec := 'cV[R]_K.
  Lemma lasso_solvable m alpha y (x : nat -> vec) t : (0 <= alpha)%re -> exists w, minimiser (lasso_loss m alpha y x t) w.
  Proof. move=> Ha. have [w Hw] := las_exists (fun j : 'I_m => y (t.-1 - j)%N) (fun j : 'I_m => x (t.-1 - j)%N) Ha. exists w => w'. exact: Hw. Qed.
  (** Two solutions make the same forecasts inside the window, and have the same 1-norm if there is a penalty. *)
  Lemma lasso_fit_unique m alpha y (x : nat -> vec) t w w' : (0 <= alpha)%re -> minimiser (lasso_loss m alpha y x t) w -> minimiser (lasso_loss m alpha y x t) w' ->
    (forall j, (j < m)%N -> forecast (x (t.-1 - j)%N) w = forecast (x (t.-1 - j)%N) w') /\ ((0 < alpha)%re -> \sum_k Rabs (w k 0) = \sum_k Rabs (w' k 0)).
  Proof.
    move=> Ha Hw Hw'. pose f (v : vec) (j : 'I_m) := forecast (x (t.-1 - j)%N) v. pose mid : vec := (/ 2)%re *: (w + w').
    have Em k : mid k 0 = ((w k 0%R + w' k 0%R) / 2)%re by rewrite /mid scaleE addE; move: (w k 0) (w' k 0) => p q; toR; field.
    have Efm j : f mid j = ((f w j + f w' j) / 2)%re.
      rewrite /f /forecast. have -> : (\sum_k x (t.-1 - j)%N k 0 * mid k 0 = \sum_k (x (t.-1 - j)%N k 0 * w k 0 + x (t.-1 - j)%N k 0 * w' k 0) * (/ 2)%re)%R.
        apply: eq_bigr => k _. rewrite Em. move: (x _ _ _) (w _ _) (w' _ _) => p q r. toR. eqR. field.
      by rewrite -big_distrl big_split.
    pose sq (v : vec) := \sum_(j < m) (y (t.-1 - j)%N - f v j) * (y (t.-1 - j)%N - f v j). pose l1 (v : vec) := \sum_k Rabs (v k 0).
    have El v : lasso_loss m alpha y x t v = (sq v + alpha * l1 v)%re by [].
    pose d := \sum_(j < m) (f w j - f w' j) * (f w j - f w' j).
    have Esq : (sq mid = (sq w + sq w') / 2 - d / 4)%re.
      rewrite /sq /d. transitivity (\sum_(j < m) (((y (t.-1 - j)%N - f w j) * (y (t.-1 - j)%N - f w j) + (y (t.-1 - j)%N - f w' j) * (y (t.-1 - j)%N - f w' j)) * (/ 2)%re - (f w j - f w' j) * (f w j - f w' j) * (/ 4)%re)).
        apply: eq_bigr => j _. rewrite Efm. move: (y _) (f w j) (f w' j) => p q r. toR. eqR. field. by rewrite sumrB -!big_distrl big_split.
    have Hl1 : (l1 mid <= (l1 w + l1 w') / 2)%re.
      have -> : ((l1 w + l1 w') / 2 = (\sum_k (Rabs (w k 0) + Rabs (w' k 0)) * (/ 2)%re)%R)%re by rewrite -big_distrl big_split.
      apply: sumR_le => k _. rewrite Em. have -> : ((w k 0%R + w' k 0%R) / 2 = (w k 0%R + w' k 0%R) * (/ 2))%re by []. rewrite Rabs_mult (Rabs_pos_eq (/ 2)); last lra. apply: Rmult_le_compat_r; first lra. exact: Rabs_triang.
    have Hd : (0 <= d)%re by apply: sumR_ge0 => j _; exact: Rle_0_sqr.
    have Hww := Hw w'. have Hww' := Hw' w. have Hmid := Hw mid. rewrite !El in Hww Hww' Hmid. have Hle := Rmult_le_compat_l _ _ _ Ha Hl1.
    have Hd0 : d = 0%re by rewrite Esq in Hmid; lra.
    have Hf j : f w j = f w' j.
      have H : ((f w j - f w' j) * (f w j - f w' j) = 0)%re.
        move: Hd0. rewrite /d (bigD1 j) //=. set X := BigOp.bigop _ _ _. have : (0 <= X)%re by apply: sumR_ge0 => i _; exact: Rle_0_sqr. have : (0 <= (f w j - f w' j) * (f w j - f w' j))%re by exact: Rle_0_sqr.
        move: X => X. toR. lra.
      case: (Rmult_integral _ _ H) => H0; lra.
    split; first by move=> j Hj; exact: (Hf (Ordinal Hj)). move=> Hpos. have Esw : sq w = sq w' by apply: eq_bigr => j _; rewrite Hf.
    change (l1 w = l1 w'). rewrite Esw in Hww Hww'. apply: (Rmult_eq_reg_l alpha); lra.
  Qed.
  (** A solver that finds a solution whenever there is one. *)
  Definition finds (solve : lsolver K) : Prop :=
    (forall f w, solve f = LSolved w -> minimiser f w) /\ (forall f, solve f <> LFailed K) /\ (forall f w, minimiser f w -> solve f <> LNone K).

  Section Run.
    Context (solve : lsolver K) (idx : seq Z) (c : seq R) (preds : seq vec) (m : nat) (alpha : R).
    Hypothesis (Hi : increasing idx) (Hc : size c = size idx) (Hx : size preds = size idx) (Hm : (0 < m)%N).
    Let y s := return_at idx c (nth Z0 idx s).
    Let x s := nth 0 preds s.
    Lemma cell_total t : (m <= t)%N -> (t < size idx)%N ->
      lasso_at solve m alpha (label_slice idx c (nth Z0 idx (t - m)) (nth Z0 idx t.-1)) (label_slice idx preds (nth Z0 idx (t - m)) (nth Z0 idx t.-1)) =
      if Rltb alpha 0 then Raise DCPError else
      match solve (lasso alpha (days y t m) (days x t m)) with LSolved w => Ok (Some w) | LNone => Ok None | LFailed => Raise SolverError end.
    Proof.
      move=> H1 H2. have Hs : size (label_slice idx c (nth Z0 idx (t - m)) (nth Z0 idx t.-1)) = m.
        rewrite (label_window 0) //; [|lia|lia]. have -> : (t.-1 - (t - m)).+1 = m by lia. rewrite (days_window 0) ?days_size //. rewrite Hc. exact: ltnW.
      rewrite /lasso_at Hs eqxx /= (old_ret Hi Hi Hc Hx (fun _ => id) Hm H1 H2 Hs) (old_pred Hi Hc Hx Hm H1 H2) days_size eqxx. by [].
    Qed.
    Lemma total_run : (0 <= alpha)%re -> finds solve -> exists out, ewma_return_combination solve idx c idx preds alpha m = Ok out /\
      out.1.1 = drop m idx /\ size out.1.2 = (size idx - m)%N /\ size out.2 = (size idx - m)%N /\
      forall t, (m <= t < size idx)%N -> minimiser (lasso_loss m alpha y x t) (nth 0 out.2 (t - m)) /\ nth 0 out.1.2 (t - m) = forecast (nth 0 preds t) (nth 0 out.2 (t - m)).
    Proof.
      move=> Ha [F1 [F2 F3]]. have Hr : Rltb alpha 0 = false by rewrite /Rltb; case: Rlt_dec => // H; exfalso; lra.
      pose sol t := if solve (lasso alpha (days y t m) (days x t m)) is LSolved w then w else 0.
      have Hsol t : (m <= t)%N -> solve (lasso alpha (days y t m) (days x t m)) = LSolved (sol t).
        move=> H1. have [w Hw] := @lasso_solvable m alpha y x t Ha. have Hw' : minimiser (lasso alpha (days y t m) (days x t m)) w by move=> w'; rewrite !lassoE.
        have := F3 _ _ Hw'. have := F2 (lasso alpha (days y t m) (days x t m)). rewrite /sol. by case: (solve _).
      exists (drop m idx, [seq dotp (nth 0 preds t) (sol t) | t <- iota m (size idx - m)], [seq sol t | t <- iota m (size idx - m)]).
      rewrite /ewma_return_combination (proj2 (seqb_ZP idx idx)) // (proj2 (inc_bP idx)) // Hm /=.
      rewrite (ListFacts.mapM_ok _ sol); last first.
        move=> t /In_mem. rewrite mem_iota => /andP [H1 H2]. have H2' : (t < size idx)%N by lia. by rewrite cell_total // Hr Hsol.
      rewrite /=. change (List.map sol (iota m (size idx - m))) with [seq sol t | t <- iota m (size idx - m)]. rewrite !size_map size_iota. split; [|split; [|split; [|split]]] => //.
      - congr (Ok (_, _, _)). apply: (@eq_from_nth _ 0) => [|j]; first by rewrite !size_map !size_iota. rewrite size_map size_iota => Hj.
        rewrite !(nth_map 0%N) ?size_iota // !nth_iota // add0n (nth_map 0%N) ?size_iota // nth_iota //.
      - move=> t /andP [H1 H2]. have Hj : (t - m < size idx - m)%N by lia. rewrite !(nth_map 0%N) ?size_iota // !nth_iota // subnKC //. split; last by [].
        move=> w'. rewrite -!lassoE //. exact: (F1 _ _ (Hsol t H1)).
    Qed.
    Lemma neg_run : (alpha < 0)%re -> (m < size idx)%N -> ewma_return_combination solve idx c idx preds alpha m = Raise DCPError.
    Proof.
      move=> Ha Hs. have Hr : Rltb alpha 0 by rewrite /Rltb; case: Rlt_dec. rewrite /ewma_return_combination (proj2 (seqb_ZP idx idx)) // (proj2 (inc_bP idx)) // Hm /=.
      have -> : (size idx - m = (size idx - m).-1.+1)%N by lia. by rewrite /= cell_total // Hr.
    Qed.
  End Run.
End Total.
