(** * Minimum-risk portfolios under an error in the covariance (C145). *)
From Coq Require Import Reals ZArith String List Lia Lra Psatz Classical.
Set Warnings "-notation-overridden,-ambiguous-paths".
From mathcomp Require Import all_ssreflect all_algebra.
From Verif Require Import RStruct MatR Num Py Combination Trader SpecTrader TraderOpt CombBest.
Set Implicit Arguments.
Unset Strict Implicit.
Unset Printing Implicit Defensive.
Import GRing.Theory.
Local Open Scope ring_scope.
Delimit Scope R_scope with re.

Definition bl n (S : 'M[R]_n) (x y : 'cV[R]_n) : R := (x^T *m S *m y) 0 0.
Definition n1 n (x : 'cV[R]_n) : R := \sum_i Rabs (x i 0).
Definition apart n (e : R) (S S' : 'M[R]_n) : Prop := forall i j, Rle (Rabs (S i j - S' i j)) e.

Lemma Rabs_def2b (x a : R) : (Rabs x <= a)%re -> (- a <= x)%re /\ (x <= a)%re.
Proof. rewrite /Rabs. case: Rcase_abs => *; lra. Qed.
Lemma scaleE n t (x : 'cV[R]_n) i : (t *: x) i 0 = (t * x i 0%R)%re. Proof. by rewrite mxE. Qed.
Lemma n1_ge0 n (x : 'cV[R]_n) : (0 <= n1 x)%re.
Proof. apply: sumR_ge0 => i _. exact: Rabs_pos. Qed.

Lemma blE n (S : 'M[R]_n) x y : bl S x y = \sum_j (\sum_i x i 0 * S i j) * y j 0.
Proof. rewrite /bl mxE. apply: eq_bigr => j _. congr (_ * _). rewrite mxE. apply: eq_bigr => i _. by rewrite mxE. Qed.

Lemma Rabs_sum (I : finType) (F : I -> R) : (Rabs (\sum_i F i)%R <= \sum_i Rabs (F i))%re.
Proof.
  elim/big_ind2: _ => //.
  - rewrite Rabs_R0. exact: Rle_refl.
  - move=> x1 x2 y1 y2 H1 H2. apply: Rle_trans (Rabs_triang _ _) _. toR. lra.
  - move=> i _. exact: Rle_refl.
Qed.

(** |x' D y| <= e |x|_1 |y|_1 if every entry of D is at most e. *)
Lemma bl_bound n (D : 'M[R]_n) x y e : (forall i j, Rle (Rabs (D i j)) e) -> (Rabs (bl D x y) <= e * n1 x * n1 y)%re.
Proof.
  move=> He. rewrite blE. apply: Rle_trans (Rabs_sum _) _.
  have -> : (e * n1 x * n1 y)%re = \sum_j (e * n1 x)%re * Rabs (y j 0) by rewrite -big_distrr.
  apply: sumR_le => j _. toR. rewrite Rabs_mult. apply: Rmult_le_compat_r; first exact: Rabs_pos.
  apply: Rle_trans (Rabs_sum _) _.
  have -> : (e * n1 x)%re = \sum_i e * Rabs (x i 0) by rewrite -big_distrr.
  apply: sumR_le => i _. toR. rewrite Rabs_mult Rmult_comm. apply: Rmult_le_compat_r; first exact: Rabs_pos. exact: He.
Qed.
Lemma blB n (A B : 'M[R]_n) x y : bl (A - B) x y = (bl A x y - bl B x y)%re.
Proof. by rewrite /bl mulmxBr mulmxBl subE. Qed.
Lemma bl_diff n (S S' : 'M[R]_n) x y e : apart e S S' -> (Rabs (bl S x y - bl S' x y) <= e * n1 x * n1 y)%re.
Proof. move=> H. rewrite -blB. apply: bl_bound => i j. rewrite subE. exact: H. Qed.
Lemma qf_bl n (S : 'M[R]_n) x : qf S x = bl S x x. Proof. by []. Qed.
Lemma qf_diff n (S S' : 'M[R]_n) x e L : (0 <= e)%re -> apart e S S' -> (n1 x <= L)%re -> (Rabs (qf S x - qf S' x) <= e * (L * L))%re.
Proof.
  move=> He H HL. rewrite !qf_bl. apply: Rle_trans (bl_diff x x H) _. have H0 := n1_ge0 x.
  rewrite Rmult_assoc. apply: Rmult_le_compat_l => //. apply: Rmult_le_compat => //.
Qed.
Lemma apart_sym n e (S S' : 'M[R]_n) : apart e S S' -> apart e S' S.
Proof. move=> H i j. rewrite Rabs_minus_sym. exact: H. Qed.

(** ** The limits are convex. *)
Lemma bl_sym n (S : 'M[R]_n) x y : sym S -> bl S x y = bl S y x.
Proof. move=> Hs. by rewrite /bl -[in LHS]Hs -[y in LHS]trmxK -mulmxA -trmx_mul -trmx_mul mxE. Qed.
Lemma blDr n (S : 'M[R]_n) x y z : bl S x (y + z) = (bl S x y + bl S x z)%re.
Proof. by rewrite /bl mulmxDr addE. Qed.
Lemma blBr n (S : 'M[R]_n) x y z : bl S x (y - z) = (bl S x y - bl S x z)%re.
Proof. by rewrite /bl mulmxBr subE. Qed.
Lemma blZr n (S : 'M[R]_n) t x y : bl S x (t *: y) = (t * bl S x y)%re.
Proof. by rewrite /bl -scalemxAr mxE. Qed.
Lemma qf_seg n (S : 'M[R]_n) w d t : sym S -> qf S (w + t *: d) = (qf S w + 2 * t * bl S w d + t * t * qf S d)%re.
Proof.
  move=> Hs. rewrite !qf_bl blDr blZr (bl_sym (w + _) w Hs) (bl_sym (w + _) d Hs) !blDr !blZr (bl_sym d w Hs).
  set a := bl S w w. set b := bl S w d. set c := bl S d d. eqR. ring.
Qed.
Lemma seg_at n (w v : 'cV[R]_n) t i : (w + t *: (v - w)) i 0 = ((1 - t) * w i 0%R + t * v i 0%R)%re.
Proof. rewrite addE scaleE subE. move: (w i 0) (v i 0) => p q. toR. eqR. ring. Qed.
Lemma portfolio_seg n l (w v : 'cV[R]_n) t : (0 <= t <= 1)%re -> portfolio l w -> portfolio l v -> portfolio l (w + t *: (v - w)).
Proof.
  move=> [Ht0 Ht1] [Hx [Hx1 [Hx2 Hx3]]] [Hy [Hy1 [Hy2 Hy3]]].
  split; last split; last split.
  - under eq_bigr do rewrite seg_at. rewrite big_split /= -!big_distrr /= Hx Hy. toR. eqR. ring.
  - move=> b Hb. have H1 := Hx1 _ Hb. have H2 := Hy1 _ Hb.
    have : Rle (\sum_i Rabs ((w + t *: (v - w))%R i 0))%R (\sum_i ((1 - t)%re * Rabs (w i 0) + t * Rabs (v i 0)))%R.
      apply: sumR_le => i _. rewrite seg_at. apply: Rle_trans (Rabs_triang _ _) _. rewrite !Rabs_mult (Rabs_pos_eq (1 - t)) ?(Rabs_pos_eq t) //; try lra. exact: Rle_refl.
    rewrite big_split /= -!big_distrr /= => H. apply: Rle_trans H _. move: H1 H2. move: (\sum_i Rabs (w i 0))%R (\sum_i Rabs (v i 0))%R => a c. toR. move=> *. nra.
  - move=> b Hb i. rewrite seg_at. have := Hx2 _ Hb i. have := Hy2 _ Hb i. move: (w i 0) (v i 0) => p q *. nra.
  - move=> b Hb i. rewrite seg_at. have := Hx3 _ Hb i. have := Hy3 _ Hb i. move: (w i 0) (v i 0) => p q *. nra.
Qed.

(** ** Least volatility is least variance; first-order condition. *)
Lemma vol_qf n (S : 'M[R]_n) P w y : spd S -> minimiser (vol S) P w -> P y -> (qf S w <= qf S y)%re.
Proof.
  move=> HS [_ H] Hy. have Hp := (spd_psd HS).2. apply: sqrt_le_0 => //. exact: H.
Qed.
Lemma first_order n (S : 'M[R]_n) l w v : spd S -> minimiser (vol S) (portfolio l) w -> portfolio l v -> (0 <= bl S w (v - w))%re.
Proof.
  move=> HS Hw Hv. have Hp := (spd_psd HS).2 (v - w).
  have K t : (0 < t <= 1)%re -> (0 <= 2 * bl S w (v - w) + t * qf S (v - w))%re.
    move=> Ht. have := vol_qf HS Hw (portfolio_seg (t := t) ltac:(lra) (proj1 Hw) Hv). rewrite (qf_seg _ _ _ (proj1 HS)).
    move: (qf S w) (bl _ _ _) (qf S (v - w)) => a b c H. apply: (Rmult_le_reg_l t); first lra. nra.
  apply: Rnot_lt_le => Hn. move: K Hp. move: (bl _ _ _) (qf _ _) Hn => b c Hb K Hc.
  have Hc1 : (0 < c + 1)%re by lra.
  case: (Rle_lt_dec (- b) (c + 1)) => Hle.
  - have Ht : (0 < - b / (c + 1) <= 1)%re.
      split; first by apply: Rdiv_lt_0_compat; lra. apply: (Rmult_le_reg_r (c + 1)) => //. rewrite /Rdiv Rmult_assoc Rinv_l; lra.
    have := K _ Ht. have E : (- b / (c + 1) * c = - b * (c / (c + 1)))%re by field; lra.
    have : (c / (c + 1) <= 1)%re by apply: (Rmult_le_reg_r (c + 1)) => //; rewrite /Rdiv Rmult_assoc Rinv_l; lra.
    rewrite E. move: (c / _)%re => q Hq. nra.
  - have := K 1%re ltac:(lra). lra.
Qed.

(** ** The main inequalities. *)
Section Two.
  Variables (n : nat) (l : limits) (S S' : 'M[R]_n) (e L : R) (w v : 'cV[R]_n).
  Hypothesis HS : spd S. Hypothesis HS' : spd S'. Hypothesis He : (0 <= e)%re. Hypothesis Ha : apart e S S'.
  Hypothesis HL : short_lim l = Some L.
  Hypothesis Hw : minimiser (vol S) (portfolio l) w. Hypothesis Hv : minimiser (vol S') (portfolio l) v.
  Lemma n1w : (n1 w <= L)%re. Proof. exact: ((proj1 Hw).2.1 _ HL). Qed.
  Lemma n1v : (n1 v <= L)%re. Proof. exact: ((proj1 Hv).2.1 _ HL). Qed.
  Lemma regret : (qf S w <= qf S v <= qf S w + 2 * e * (L * L))%re.
  Proof.
    split; first exact: (vol_qf HS Hw (proj1 Hv)).
    have H1 := vol_qf HS' Hv (proj1 Hw). have [A1 A2] := Rabs_def2b (qf_diff He Ha n1w). have [B1 B2] := Rabs_def2b (qf_diff He Ha n1v).
    move: (qf S w) (qf S' w) (qf S v) (qf S' v) H1 A1 A2 B1 B2 => a b c d. move: (L * L)%re => q *. lra.
  Qed.
  Lemma forecast : (Rabs (qf S' v - qf S w) <= e * (L * L))%re.
  Proof.
    have H1 := vol_qf HS' Hv (proj1 Hw). have H0 := vol_qf HS Hw (proj1 Hv).
    have [A1 A2] := Rabs_def2b (qf_diff He Ha n1w). have [B1 B2] := Rabs_def2b (qf_diff He Ha n1v).
    move: (qf S w) (qf S' w) (qf S v) (qf S' v) H0 H1 A1 A2 B1 B2 => a b c d. move: (L * L)%re => q *. apply: Rabs_le. lra.
  Qed.
  Lemma d_bound : (qf S (v - w) <= e * L * n1 (v - w))%re.
  Proof.
    have H1 := first_order HS Hw (proj1 Hv). have H2 := first_order HS' Hv (proj1 Hw).
    have -> : qf S (v - w) = (bl S v (v - w) - bl S w (v - w))%re.
      by rewrite qf_bl {1}/bl trB !mulmxBl subE.
    have H3 : (bl S' v (v - w) <= 0)%re.
      have E : bl S' v (w - v) = (- bl S' v (v - w))%re by rewrite !blBr; move: (bl _ _ _) (bl _ _ _) => p q; lra.
      move: H2. rewrite E. lra.
    have [A1 A2] := Rabs_def2b (bl_diff v (v - w) Ha).
    have : (e * n1 v * n1 (v - w) <= e * L * n1 (v - w))%re.
      apply: Rmult_le_compat_r; first exact: n1_ge0. apply: Rmult_le_compat_l => //. exact: n1v.
    move: H1 H3 A1 A2. move: (bl S w _) (bl S v _) (bl S' v _) (_ * _ * n1 _)%re (_ * _ * n1 _)%re => *. lra.
  Qed.
  Lemma n1_sq (x : 'cV[R]_n) : (n1 x * n1 x <= INR n * nsq x)%re.
  Proof.
    have := cauchy1 (fun _ : 'I_n => R1) (fun i => Rabs (x i 0)).
    have -> : \sum_i R1 * Rabs (x i 0) = n1 x by apply: eq_bigr => i _; rewrite mul1r.
    have -> : \sum_i Rabs (x i 0) * Rabs (x i 0) = nsq x by rewrite nsqE; apply: eq_bigr => i _; toR; rewrite -Rabs_mult Rabs_pos_eq //; exact: Rle_0_sqr.
    have -> // : \sum_(i < n) R1 * R1 = INR n.
    elim: (n) => [|k IH]; first by rewrite big_ord0. by rewrite big_ord_recr IH S_INR /=; toR; eqR; ring.
  Qed.
  Lemma weights lam : (0 < lam)%re -> (forall x, lam * nsq x <= qf S x)%re -> (nsq (v - w) <= INR n * ((e * L / lam) * (e * L / lam)))%re.
  Proof.
    move=> Hl H. have H1 := Rle_trans _ _ _ (H _) d_bound. have H2 := n1_sq (v - w). have H0 := n1_ge0 (v - w). have Hq := nsq_ge0 (v - w).
    have HL0 : (0 <= e * L)%re by apply: Rmult_le_pos => //; apply: Rle_trans n1w; exact: n1_ge0.
    have Hn := pos_INR n.
    move: (nsq _) (n1 _) (e * L)%re (INR n) H1 H2 H0 Hq HL0 Hn => q m E N H1 H2 H0 Hq HE HN.
    have E1 : (E / lam * (E / lam) = E * E / (lam * lam))%re by field; lra.
    rewrite E1. have Hll : (0 < lam * lam)%re by nra.
    apply: (Rmult_le_reg_r (lam * lam)) => //.
    have -> : (N * (E * E / (lam * lam)) * (lam * lam))%re = (N * (E * E))%re by field; lra.
    case: (Rle_lt_or_eq_dec _ _ Hq) => [Hp|<-]; last by rewrite Rmult_0_l; apply: Rmult_le_pos => //; nra.
    apply: (Rmult_le_reg_r q) => //.
    have H3 : (lam * q * (lam * q) <= E * m * (E * m))%re by apply: Rmult_le_compat => //; nra.
    have H4 : (E * m * (E * m) <= E * E * (N * q))%re.
      have -> : (E * m * (E * m))%re = (E * E * (m * m))%re by ring. apply: Rmult_le_compat_l => //. nra.
    lra.
  Qed.
End Two.

(** ** Continuity. *)
Lemma weights_cont n l (S : 'M[R]_n) L w eps : spd S -> short_lim l = Some L -> minimiser (vol S) (portfolio l) w -> (0 < eps)%re ->
  exists2 d, (0 < d)%re & forall S' v, spd S' -> apart d S S' -> minimiser (vol S') (portfolio l) v -> forall i, (Rabs (v i 0%R - w i 0%R) <= eps)%re.
Proof.
  move=> HS HL Hw He. have [lam [Hl Hlam]] := spd_lower HS.
  have L0 : (0 <= L)%re by apply: Rle_trans (n1w HL Hw); exact: n1_ge0.
  have N0 := pos_INR n.
  pose d := (eps * lam / ((L + 1) * (INR n + 1)))%re.
  have Hd : (0 < d)%re by apply: Rdiv_lt_0_compat; nra.
  exists d => // S' v HS' Ha Hv i.
  have := weights HS HS' (Rlt_le _ _ Hd) Ha HL Hw Hv Hl Hlam.
  have -> : (d * L / lam = eps * (L / ((L + 1) * (INR n + 1))))%re by rewrite /d; field; lra.
  have Hi : ((v i 0%R - w i 0%R) * (v i 0%R - w i 0%R) <= nsq (v - w))%re.
    rewrite nsqE (bigD1 i) //= !subE. have : (0 <= \sum_(j < n | j != i) (v - w) j 0 * (v - w) j 0)%re by apply: sumR_ge0 => j _; exact: Rle_0_sqr.
    move: (\sum_(j < n | _) _) (v i 0) (w i 0) => p a b. toR. lra.
  move=> H. apply: Rsqr_incr_0_var; last exact: Rlt_le. rewrite -Rsqr_abs /Rsqr. apply: Rle_trans Hi _. apply: Rle_trans H _.
  move: (INR n) N0 => N N0.
  have Hq1 : (0 <= L / (L + 1) <= 1)%re.
    split; first by apply: Rmult_le_pos => //; apply: Rlt_le; apply: Rinv_0_lt_compat; lra.
    apply: (Rmult_le_reg_r (L + 1)); first lra. rewrite /Rdiv Rmult_assoc Rinv_l; lra.
  have Hq2 : (0 <= / (N + 1) <= 1)%re.
    split; first by apply: Rlt_le; apply: Rinv_0_lt_compat; lra. rewrite -Rinv_1. apply: Rinv_le_contravar; lra.
  have Hq3 : (0 <= N / (N + 1) <= 1)%re.
    split; first by apply: Rmult_le_pos; lra. apply: (Rmult_le_reg_r (N + 1)); first lra. rewrite /Rdiv Rmult_assoc Rinv_l; lra.
  have -> : (N * (eps * (L / ((L + 1) * (N + 1))) * (eps * (L / ((L + 1) * (N + 1))))))%re =
     (eps * eps * ((L / (L + 1)) * (L / (L + 1)) * ((N / (N + 1)) * / (N + 1))))%re by field; lra.
  move: (L / (L + 1))%re (N / (N + 1))%re (/ (N + 1))%re Hq1 Hq2 Hq3 => a b c *.
  have Hb : (b * c <= 1)%re by nra. have Hb0 : (0 <= b * c)%re by nra. have Ha2 : (a * a <= 1)%re by nra. have Ha0 : (0 <= a * a)%re by nra.
  have : (a * a * (b * c) <= 1)%re by nra. nra.
Qed.

(** ** Two backtests. *)
From Verif Require Import TraderMain TraderFinal.
Lemma two_backtests n (solve solve' : solver_t n) W W' (T T' : trader n) a a' L e W1 T1 W2 T2 ws vs :
  solve_ok solve -> solve_ok solve' -> trader_ok T -> trader_ok T' -> well_formed W -> well_formed W' ->
  a_type a = MinRisk -> a_speedup a = false -> a_rhos a = None -> a_type a' = MinRisk -> a_speedup a' = false -> a_rhos a' = None ->
  a_limits a' = a_limits a -> short_lim (a_limits a) = Some L -> (0 <= e)%re ->
  backtest solve W T a = (W1, T1, None) -> backtest solve' W' T' a' = (W2, T2, None) -> t_ws T1 = Some ws -> t_ws T2 = Some vs ->
  forall t w v w0 v0, (t < size (t_times T))%N -> (t < size (t_times T'))%N -> nth None ws t = Some (w, w0) -> nth None vs t = Some (v, v0) ->
  let S := nth 0 (t_Sigmas T) t in let S' := nth 0 (t_Sigmas T') t in
  apart e S S' ->
  (qf S w <= qf S v <= qf S w + 2 * e * (L * L))%re /\
  (forall lam, (0 < lam)%re -> (forall x, lam * nsq x <= qf S x)%re -> nsq (v - w) <= INR n * ((e * L / lam) * (e * L / lam)))%re.
Proof.
  move=> So So' HT HT' HW HW' A1 A2 A3 B1 B2 B3 El HL He E1 E2 Ews Evs t w v w0 v0 Ht Ht' Nw Nv S S' Ha.
  have HS : spd S by case: HT => [Es [_ [_ [_ [H _]]]]]; apply: H; apply: mem_nth; rewrite Es.
  have HS' : spd S' by case: HT' => [Es [_ [_ [_ [H _]]]]]; apply: H; apply: mem_nth; rewrite Es.
  have Mw : minimiser (vol S) (portfolio (a_limits a)) w.
    have := min_risk_main So HT HW A1 A2 A3. rewrite E1 => -[//|[_ [ws1 [ob [F1 [_ [_ H]]]]]]]. move: F1. rewrite Ews => -[] F1. rewrite -F1 in H.
    case: H => [[_ [_ [_ H]]]|[_ H]]; last by rewrite H in Nw.
    have [x [N [M _]]] := H _ Ht. by move: N; rewrite Nw => -[-> _].
  have Mv : minimiser (vol S') (portfolio (a_limits a)) v.
    have := min_risk_main So' HT' HW' B1 B2 B3. rewrite E2 => -[//|[_ [ws1 [ob [F1 [_ [_ H]]]]]]]. move: F1. rewrite Evs => -[] F1. rewrite -F1 in H.
    case: H => [[_ [_ [_ H]]]|[_ H]]; last by rewrite H in Nv.
    have [x [N [M _]]] := H _ Ht'. move: N; rewrite Nv -El => -[-> _]. exact: M.
  split; first exact: (regret HS HS' He Ha HL Mw Mv).
  move=> lam. exact: (weights HS HS' He Ha HL Mw Mv).
Qed.
Lemma sum_nsq n (w v : 'cV[R]_n) : \sum_i (v i 0 - w i 0) * (v i 0 - w i 0) = nsq (v - w).
Proof. rewrite nsqE. apply: eq_bigr => i _. by rewrite !subE. Qed.
Lemma weights_sum n l (S S' : 'M[R]_n) e L w v : spd S -> spd S' -> (0 <= e)%re ->
  (forall i j, (Rabs (S i j - S' i j) <= e)%re) -> short_lim l = Some L ->
  minimiser (vol S) (portfolio l) w -> minimiser (vol S') (portfolio l) v ->
  forall lam, (0 < lam)%re -> (forall x : 'cV[R]_n, (lam * (\sum_i x i 0 * x i 0)%R <= qf S x)%re) ->
  ((\sum_i (v i 0 - w i 0) * (v i 0 - w i 0))%R <= INR n * ((e * L / lam) * (e * L / lam)))%re.
Proof.
  move=> HS HS' He Ha HL Hw Hv lam Hl H. rewrite sum_nsq. apply: (weights HS HS' He Ha HL Hw Hv Hl) => x. rewrite nsqE. exact: H.
Qed.
Lemma two_backtests_sum n (solve solve' : solver_t n) W W' (T T' : trader n) a a' L e W1 T1 W2 T2 ws vs :
  solve_ok solve -> solve_ok solve' -> trader_ok T -> trader_ok T' -> well_formed W -> well_formed W' ->
  a_type a = MinRisk -> a_speedup a = false -> a_rhos a = None -> a_type a' = MinRisk -> a_speedup a' = false -> a_rhos a' = None ->
  a_limits a' = a_limits a -> short_lim (a_limits a) = Some L -> (0 <= e)%re ->
  backtest solve W T a = (W1, T1, None) -> backtest solve' W' T' a' = (W2, T2, None) -> t_ws T1 = Some ws -> t_ws T2 = Some vs ->
  forall t w v w0 v0, (t < size (t_times T))%N -> (t < size (t_times T'))%N -> nth None ws t = Some (w, w0) -> nth None vs t = Some (v, v0) ->
  let S := nth 0 (t_Sigmas T) t in let S' := nth 0 (t_Sigmas T') t in
  (forall i j, (Rabs (S i j - S' i j) <= e)%re) ->
  (qf S w <= qf S v <= qf S w + 2 * e * (L * L))%re /\
  (forall lam, (0 < lam)%re -> (forall x : 'cV[R]_n, (lam * (\sum_i x i 0 * x i 0)%R <= qf S x)%re) ->
    ((\sum_i (v i 0 - w i 0) * (v i 0 - w i 0))%R <= INR n * ((e * L / lam) * (e * L / lam)))%re).
Proof.
  move=> So So' HT HT' HW HW' A1 A2 A3 B1 B2 B3 El HL He E1 E2 Ews Evs t w v w0 v0 Ht Ht' Nw Nv S S' Ha.
  have [H1 H2] := two_backtests So So' HT HT' HW HW' A1 A2 A3 B1 B2 B3 El HL He E1 E2 Ews Evs Ht Ht' Nw Nv Ha.
  split=> // lam Hl H. rewrite sum_nsq. apply: H2 => // x. rewrite nsqE. exact: H.
Qed.
