(** * Portfolios under another listing of the assets and other units of the covariances (C147). *)
From Coq Require Import Reals ZArith String List Lia Lra Psatz Classical.
Set Warnings "-notation-overridden,-ambiguous-paths".
From mathcomp Require Import all_ssreflect all_algebra.
From Verif Require Import RStruct MatR Num Py Combination Trader SpecTrader TraderOpt TraderUnique TraderMain TraderFinal TraderLip PropTrader.
Set Implicit Arguments.
Unset Strict Implicit.
Unset Printing Implicit Defensive.
Import GRing.Theory.
Local Open Scope ring_scope.
Delimit Scope R_scope with re.

Section Relist.
  Variables (n : nat) (s g : 'I_n -> 'I_n).
  Hypothesis sg : cancel s g. Hypothesis gs : cancel g s.
  Definition rlv (s : 'I_n -> 'I_n) (w : 'cV[R]_n) : 'cV[R]_n := \col_i w (s i) 0.
  Definition rlm (s : 'I_n -> 'I_n) (c : R) (S : 'M[R]_n) : 'M[R]_n := \matrix_(i, j) (c * S (s i) (s j)).
  Lemma s_inj : injective s. Proof. exact: can_inj sg. Qed.
  Lemma rlvE w i : rlv s w i 0 = w (s i) 0. Proof. by rewrite mxE. Qed.
  Lemma rlv_gs w : rlv s (rlv g w) = w. Proof. by apply/colP => i; rewrite !mxE sg. Qed.
  Lemma rlv_sg w : rlv g (rlv s w) = w. Proof. by apply/colP => i; rewrite !mxE gs. Qed.
  Lemma reidx (F : 'I_n -> R) : \sum_i F (s i) = \sum_i F i.
  Proof. rewrite [RHS](reindex_inj s_inj). by []. Qed.
  Lemma qf_rl c S w : qf (rlm s c S) (rlv s w) = (c * qf S w)%re.
  Proof.
    rewrite !qf_bl !blE. rewrite -(reidx (fun j => (\sum_i w i 0 * S i j) * w j 0)).
    have -> : (c * (\sum_j (\sum_i w i 0 * S i (s j)) * w (s j) 0)%R)%re = \sum_j c * ((\sum_i w i 0 * S i (s j)) * w (s j) 0) by rewrite -big_distrr.
    apply: eq_bigr => j _. rewrite rlvE mulrA. congr (_ * _). rewrite -(reidx (fun i => w i 0 * S i (s j))) big_distrr /=. apply: eq_bigr => i _. by rewrite !mxE mulrCA.
  Qed.
  Lemma vol_rl c S w : (0 < c)%re -> vol (rlm s c S) (rlv s w) = (sqrt c * vol S w)%re.
  Proof.
    move=> Hc. rewrite /vol qf_rl. apply: sqrt_mult_alt. lra.
  Qed.
  Lemma portfolio_rl l w : portfolio l w -> portfolio l (rlv s w).
  Proof.
    move=> [H1 [H2 [H3 H4]]]. split; last split; last split.
    - rewrite -H1 -(reidx (fun i => w i 0)). apply: eq_bigr => i _. exact: rlvE.
    - move=> b Hb. have -> : \sum_i Rabs (rlv s w i 0) = \sum_i Rabs (w i 0); last exact: H2.
      rewrite -(reidx (fun i => Rabs (w i 0))). apply: eq_bigr => i _. by rewrite rlvE.
    - move=> b Hb i. rewrite rlvE. exact: H3.
    - move=> b Hb i. rewrite rlvE. exact: H4.
  Qed.
  Lemma long_rl M w : long_cap M w -> long_cap M (rlv s w).
  Proof.
    move=> [H1 [H2 H3]]. split; last split.
    - move=> i. rewrite mxE. exact: H1.
    - rewrite -H2 -(reidx (fun i => w i 0)). apply: eq_bigr => i _. exact: rlvE.
    - move=> i. rewrite mxE. exact: H3.
  Qed.
  Lemma vol_pos (S : 'M[R]_n) (w : 'cV[R]_n) : spd S -> \sum_i w i 0 = 1 -> (0 < vol S w)%re.
  Proof.
    move=> [_ HS] Hw. apply: sqrt_lt_R0. apply: HS. apply/eqP => E. move: Hw. rewrite E big1; last by move=> i _; rewrite mxE.
    move/eqP. by rewrite eq_sym oner_eq0.
  Qed.
  Lemma div_rl c S (w : 'cV[R]_n) : (0 < c)%re -> spd S -> \sum_i w i 0 = 1 -> div_ratio (rlm s c S) (rlv s w) = div_ratio S w.
  Proof.
    move=> Hc HS Hw. rewrite /div_ratio vol_rl //. have Hv := vol_pos HS Hw. have Hq := sqrt_lt_R0 _ Hc.
    have -> : \sum_i sqrt (rlm s c S i i) * rlv s w i 0 = (sqrt c * (\sum_i sqrt (S i i) * w i 0)%R)%re.
      rewrite -(reidx (fun i => sqrt (S i i) * w i 0)). have -> : (sqrt c * (\sum_i sqrt (S (s i) (s i)) * w (s i) 0)%R)%re = \sum_i sqrt c * (sqrt (S (s i) (s i)) * w (s i) 0) by rewrite -big_distrr.
      apply: eq_bigr => i _. rewrite !mxE mulrA. congr (_ * _). apply: sqrt_mult_alt. lra.
    field. lra.
  Qed.
  Lemma mul_rl c S (w : 'cV[R]_n) i : (rlm s c S *m rlv s w) i 0 = (c * (S *m w) (s i) 0%R)%re.
  Proof.
    rewrite !mxE -(reidx (fun j => S (s i) j * w j 0)). have -> : (c * (\sum_j S (s i) (s j) * w (s j) 0)%R)%re = \sum_j c * (S (s i) (s j) * w (s j) 0) by rewrite -big_distrr.
    apply: eq_bigr => j _. by rewrite !mxE mulrA.
  Qed.
  Lemma parity_rl c S w : (0 < c)%re -> risk_parity S w -> risk_parity (rlm s c S) (rlv s w).
  Proof.
    move=> Hc [H1 [H2 H3]]. split; last split.
    - move=> i. rewrite mxE. exact: H1.
    - rewrite -H2 -(reidx (fun i => w i 0)). apply: eq_bigr => i _. exact: rlvE.
    - move=> i. rewrite rlvE mul_rl qf_rl. have := H3 (s i). move: (w (s i) 0) ((S *m w) (s i) 0) (qf S w) => a b q. toR. move=> H.
      have -> : (a * (c * b))%re = (c * (a * b))%re by ring. rewrite H /Rdiv. eqR. ring.
  Qed.
End Relist.

Section Opt.
  Variables (n : nat) (s g : 'I_n -> 'I_n).
  Hypothesis sg : cancel s g. Hypothesis gs : cancel g s.
  Variables (c : R) (S S' : 'M[R]_n).
  Hypothesis Hc : (0 < c)%re. Hypothesis HS : spd S. Hypothesis HS' : spd S'. Hypothesis E : forall i j, S' i j = (c * S (s i) (s j))%re.
  Lemma S'E : S' = rlm s c S. Proof. apply/matrixP => i j. by rewrite mxE E. Qed.
  Lemma min_rl l w v : minimiser (vol S) (portfolio l) w -> minimiser (vol S') (portfolio l) v -> v = rlv s w.
  Proof.
    move=> [Hw Mw] Hv. apply: (min_unique HS' (@portfolio_mid n l) Hv). split; first exact: (portfolio_rl sg).
    move=> y Hy. rewrite -(rlv_gs sg y) S'E !(vol_rl sg) //. apply: Rmult_le_compat_l; first exact: sqrt_pos. apply: Mw. exact: (portfolio_rl gs).
  Qed.
  Lemma div_max_rl M w v : (long_cap M w /\ forall u, long_cap M u -> Rle (div_ratio S u) (div_ratio S w)) ->
    (long_cap M v /\ forall u, long_cap M u -> Rle (div_ratio S' u) (div_ratio S' v)) -> v = rlv s w.
  Proof.
    move=> [Hw Mw] Hv. apply: (C71_unique HS' Hv). split; first exact: (long_rl sg).
    move=> y Hy. have Hg := long_rl gs Hy. rewrite -(rlv_gs sg y) S'E !(div_rl sg) //; [exact: Mw|by case: Hw => _ []|by case: Hg => _ []].
  Qed.
End Opt.

(** ** Backtests. *)
Section Backtests.
  Variables (n : nat) (s : 'I_n -> 'I_n) (T T' : trader n).
  Hypothesis Hs : bijective s.
  Hypothesis HT : trader_ok T. Hypothesis HT' : trader_ok T'.
  Hypothesis Es : size (t_times T') = size (t_times T).
  Hypothesis HE : forall t, (t < size (t_times T))%N -> exists c, (0 < c)%re /\ forall i j, nth 0 (t_Sigmas T') t i j = (c * nth 0%R (t_Sigmas T) t (s i) (s j))%re.
  Definition relisted (ws vs : seq (option ('cV[R]_n * seq R))) : Prop := forall t, (t < size (t_times T))%N ->
    nth None vs t = omap (fun u : 'cV[R]_n * seq R => (\col_i u.1 (s i) 0, u.2)) (nth None ws t).
  Lemma spd_at (U : trader n) t : trader_ok U -> (t < size (t_times U))%N -> spd (nth 0 (t_Sigmas U) t).
  Proof. case=> [E [_ [_ [_ [H _]]]]] Ht. apply: H. apply: mem_nth. by rewrite E. Qed.

  Lemma relist_min solve solve' W W' a a' W1 T1 W2 T2 : solve_ok solve -> solve_ok solve' -> well_formed W -> well_formed W' ->
    a_type a = MinRisk -> a_speedup a = false -> a_rhos a = None -> a_type a' = MinRisk -> a_speedup a' = false -> a_rhos a' = None ->
    a_limits a' = a_limits a -> consistent W (a_cons a) -> consistent W' (a_cons a') ->
    backtest solve W T a = (W1, T1, None) -> backtest solve' W' T' a' = (W2, T2, None) ->
    exists ws vs, t_ws T1 = Some ws /\ t_ws T2 = Some vs /\ relisted ws vs.
  Proof.
    move=> So So' HW HW' A1 A2 A3 B1 B2 B3 El C C' E1 E2. have [g sg gs] := Hs.
    have := min_risk_main So HT HW A1 A2 A3. rewrite E1 => -[//|[_ [ws [ob [F1 [_ [_ H]]]]]]].
    have := min_risk_main So' HT' HW' B1 B2 B3. rewrite E2 => -[//|[_ [vs [ob' [F2 [_ [_ H']]]]]]]. rewrite El in H'.
    exists ws, vs. split=> //. split=> // t Ht. have Ht' : (t < size (t_times T'))%N by rewrite Es.
    case: H => [[_ [P [_ H]]]|[[//|P] H]]; case: H' => [[_ [P' [_ H']]]|[[//|P'] H']] //.
    - have [w [-> [M _]]] := H t Ht. have [v [-> [M' _]]] := H' t Ht'. have [c [Hc EE]] := HE Ht.
      congr (Some (_, _)). exact: (min_rl sg gs Hc (spd_at HT' Ht') EE M M').
    - by rewrite H // H'.
  Qed.

  Lemma relist_div solve solve' W W' a a' M W1 T1 W2 T2 : solve_ok solve -> solve_ok solve' ->
    a_type a = MaxDiverse -> a_rhos a = None -> upper_bound (a_limits a) = Some M -> a_type a' = MaxDiverse -> a_rhos a' = None -> upper_bound (a_limits a') = Some M ->
    backtest solve W T a = (W1, T1, None) -> backtest solve' W' T' a' = (W2, T2, None) ->
    exists ws vs, t_ws T1 = Some ws /\ t_ws T2 = Some vs /\ relisted ws vs.
  Proof.
    move=> So So' A1 A2 A3 B1 B2 B3 E1 E2. have [g sg gs] := Hs.
    have := C71_max_diversification W So HT A1 A2 A3. rewrite E1 => -[_ [//|[[//]|[_ [ws [F1 [_ H]]]]]]].
    have := C71_max_diversification W' So' HT' B1 B2 B3. rewrite E2 => -[_ [//|[[//]|[_ [vs [F2 [_ H']]]]]]].
    exists ws, vs. split=> //. split=> // t Ht. have Ht' : (t < size (t_times T'))%N by rewrite Es.
    have [w [-> Mw]] := H t Ht. have [v [-> Mv]] := H' t Ht'. have [c [Hc EE]] := HE Ht.
    congr (Some (_, _)). exact: (div_max_rl sg gs Hc (spd_at HT Ht) (spd_at HT' Ht') EE Mw Mv).
  Qed.

  Lemma relist_parity solve solve' W W' a a' W1 T1 W2 T2 : (0 < n)%N -> solve_ok solve -> solve_ok solve' ->
    a_type a = RiskParity -> a_rhos a = None -> a_type a' = RiskParity -> a_rhos a' = None ->
    backtest solve W T a = (W1, T1, None) -> backtest solve' W' T' a' = (W2, T2, None) ->
    exists ws vs, t_ws T1 = Some ws /\ t_ws T2 = Some vs /\ relisted ws vs.
  Proof.
    move=> Hn So So' A1 A2 B1 B2 E1 E2. have [g sg gs] := Hs.
    have := C72_risk_parity W Hn So HT A1 A2. rewrite E1 => -[_ [//|[_ [ws [F1 [_ H]]]]]].
    have := C72_risk_parity W' Hn So' HT' B1 B2. rewrite E2 => -[_ [//|[_ [vs [F2 [_ H']]]]]].
    exists ws, vs. split=> //. split=> // t Ht. have Ht' : (t < size (t_times T'))%N by rewrite Es.
    have [w [-> [Mw _]]] := H t Ht. have [v [-> [_ Mv]]] := H' t Ht'. have [c [Hc EE]] := HE Ht.
    congr (Some (_, _)). apply/esym. apply: Mv. rewrite (S'E EE). exact: (parity_rl sg Hc Mw).
  Qed.
End Backtests.
