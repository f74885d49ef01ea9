(** * The efficient frontier (C148). *)
From Coq Require Import Reals ZArith String List Lia Lra Psatz Classical.
Set Warnings "-notation-overridden,-ambiguous-paths".
From mathcomp Require Import all_ssreflect all_algebra.
From Verif Require Import RStruct MatR Num Py Combination Trader SpecTrader TraderOpt TraderMain TraderFinal CombBest TraderLip PropTrader SpecFrontier.
Set Implicit Arguments.
Unset Strict Implicit.
Unset Printing Implicit Defensive.
Import GRing.Theory.
Local Open Scope ring_scope.
Delimit Scope R_scope with re.

(** ** Volatility is convex. *)
Lemma bl_cauchy n (S : 'M[R]_n) x y : spd S -> (bl S x y <= vol S x * vol S y)%re.
Proof.
  move=> HS. have [L [_ HL]] := L_inv_ok HS.
  have E : bl S x y = \sum_i (L *m x) i 0 * (L *m y) i 0.
    rewrite /bl -HL mulmxA -trmx_mul -mulmxA mxE. apply: eq_bigr => i _. by rewrite mxE.
  have Q z : qf S z = \sum_i (L *m z) i 0 * (L *m z) i 0 by rewrite -HL qf_gram nsqE.
  have H := cauchy1 (fun i => (L *m x) i 0) (fun i => (L *m y) i 0). rewrite -E -!Q in H.
  rewrite /vol -sqrt_mult_alt; last exact: (qf_ge0 HS). apply: Rle_trans (Rle_abs _) _. rewrite -sqrt_Rsqr_abs. apply: sqrt_le_1_alt. exact: H.
Qed.
Lemma vol_seg n (S : 'M[R]_n) w v t : spd S -> (0 <= t <= 1)%re -> (vol S (w + t *: (v - w)) <= (1 - t) * vol S w + t * vol S v)%re.
Proof.
  move=> HS Ht. have H0 := vol_ge0 S w. have H1 := vol_ge0 S v. have Hc := bl_cauchy w v HS.
  apply: Rsqr_incr_0_var; last by nra. rewrite /Rsqr (vol_sq HS) (qf_seg _ _ _ (proj1 HS)).
  have E : qf S (v - w) = (qf S v - 2 * bl S w v + qf S w)%re.
    rewrite !qf_bl {1}/bl trB !mulmxBl subE -/(bl S v (v - w)) -/(bl S w (v - w)) !blBr (bl_sym v w (proj1 HS)).
    move: (bl S w v) (bl S v v) (bl S w w) => a b c. toR. eqR. ring.
  rewrite E blBr -(qf_bl S w) -!(vol_sq HS). move: (bl S w v) (vol S w) (vol S v) H0 H1 Hc => c a b *.
  have : (0 <= t * (1 - t) * (a * b - c))%re by apply: Rmult_le_pos; [nra|lra]. nra.
Qed.

(** ** Mean-variance portfolios. *)
Definition mseg n (t : R) (u v : 'cV[R]_n * R) : 'cV[R]_n * R := (u.1 + t *: (v.1 - u.1), ((1 - t) * u.2 + t * v.2)%re).
Lemma sum_seg n (t : R) (r w v : 'cV[R]_n) : \sum_i r i 0 * (w + t *: (v - w)) i 0 = ((1 - t) * (\sum_i r i 0 * w i 0)%R + t * (\sum_i r i 0 * v i 0)%R)%re.
Proof.
  have -> : ((1 - t) * (\sum_i r i 0 * w i 0)%R + t * (\sum_i r i 0 * v i 0)%R)%re = \sum_i ((1 - t)%re * (r i 0 * w i 0) + t * (r i 0 * v i 0)) by rewrite big_split /= -!big_distrr.
  apply: eq_bigr => i _. rewrite seg_at. move: (r i 0) (w i 0) (v i 0) => a b c. toR. eqR. ring.
Qed.
Lemma sum1_seg n (t : R) (w v : 'cV[R]_n) : \sum_i (w + t *: (v - w)) i 0 = ((1 - t) * (\sum_i w i 0)%R + t * (\sum_i v i 0)%R)%re.
Proof.
  have -> : ((1 - t) * (\sum_i w i 0)%R + t * (\sum_i v i 0)%R)%re = \sum_i ((1 - t)%re * w i 0 + t * v i 0) by rewrite big_split /= -!big_distrr.
  apply: eq_bigr => i _. by rewrite seg_at.
Qed.
Lemma within_seg n l (w v : 'cV[R]_n) t : (0 <= t <= 1)%re -> within l w -> within l v -> within l (w + t *: (v - w)).
Proof.
  move=> [Ht0 Ht1] [Hx1 [Hx2 Hx3]] [Hy1 [Hy2 Hy3]].
  split; last split.
  - move=> b Hb. have H1 := Hx1 _ Hb. have H2 := Hy1 _ Hb.
    have : Rle (\sum_i Rabs ((w + t *: (v - w))%R i 0))%R (\sum_i ((1 - t)%re * Rabs (w i 0) + t * Rabs (v i 0)))%R.
      apply: sumR_le => i _. rewrite seg_at. apply: Rle_trans (Rabs_triang _ _) _. rewrite !Rabs_mult (Rabs_pos_eq (1 - t)) ?(Rabs_pos_eq t) //; try lra. exact: Rle_refl.
    rewrite big_split /= -!big_distrr /= => H. apply: Rle_trans H _. move: H1 H2. move: (\sum_i Rabs (w i 0))%R (\sum_i Rabs (v i 0))%R => a c. toR. move=> *. nra.
  - move=> b Hb i. rewrite seg_at. have := Hx2 _ Hb i. have := Hy2 _ Hb i. move: (w i 0) (v i 0) => p q *. nra.
  - move=> b Hb i. rewrite seg_at. have := Hx3 _ Hb i. have := Hy3 _ Hb i. move: (w i 0) (v i 0) => p q *. nra.
Qed.
Lemma mv_seg n l (S : 'M[R]_n) b1 b2 t u v : spd S -> (0 <= t <= 1)%re -> mv_portfolio l S b1 u -> mv_portfolio l S b2 v ->
  mv_portfolio l S ((1 - t) * b1 + t * b2)%re (mseg t u v).
Proof.
  move=> HS Ht [H1 [H2 H3]] [G1 [G2 G3]]. split; last split.
  - rewrite /mseg /= sum1_seg. move: H1 G1. move: (\sum_i u.1 i 0) (\sum_i v.1 i 0) u.2 v.2 => a b c d. toR. move=> A B. have -> : a = (1 - c)%re by lra. have -> : b = (1 - d)%re by lra. ring.
  - have := vol_seg u.1 v.1 HS Ht. rewrite /mseg /=. move: (vol S u.1) (vol S v.1) (vol S (u.1 + t *: (v.1 - u.1))) H2 G2 (sqrt_pos 252%re) => a b c. move: (sqrt 252%re) => q A B Q C.
    have K : (q * c <= q * ((1 - t) * a + t * b))%re by apply: Rmult_le_compat_l. 
    have : (t * (q * b) <= t * b2)%re by apply: Rmult_le_compat_l B; lra. have : ((1 - t) * (q * a) <= (1 - t) * b1)%re by apply: Rmult_le_compat_l A; lra. lra.
  - exact: within_seg.
Qed.
Lemma value_seg n (r rho : 'cV[R]_n) t u v : (forall i, Rle 0 (rho i ord0)) -> (0 <= t <= 1)%re ->
  ((1 - t) * mv_value r rho u + t * mv_value r rho v <= mv_value r rho (mseg t u v))%re.
Proof.
  move=> Hr Ht. rewrite /mv_value /mseg /= sum_seg.
  have : (\sum_i rho i 0 * Rabs ((u.1 + t *: (v.1 - u.1))%R i 0) <= (1 - t) * (\sum_i rho i 0 * Rabs (u.1 i 0))%R + t * (\sum_i rho i 0 * Rabs (v.1 i 0))%R)%re.
    have -> : ((1 - t) * (\sum_i rho i 0 * Rabs (u.1 i 0))%R + t * (\sum_i rho i 0 * Rabs (v.1 i 0))%R)%re = \sum_i ((1 - t)%re * (rho i 0 * Rabs (u.1 i 0)) + t * (rho i 0 * Rabs (v.1 i 0))) by rewrite big_split /= -!big_distrr.
    apply: sumR_le => i _. rewrite seg_at. have : (Rabs ((1 - t) * u.1 i 0%R + t * v.1 i 0%R) <= (1 - t) * Rabs (u.1 i 0%R) + t * Rabs (v.1 i 0%R))%re.
      apply: Rle_trans (Rabs_triang _ _) _. rewrite !Rabs_mult (Rabs_pos_eq (1 - t)) ?(Rabs_pos_eq t) //; lra.
    have Hp : (0 <= rho i 0%R)%re := Hr i. move: Hp. move: (rho i 0) (Rabs (u.1 i 0)) (Rabs (v.1 i 0)) (Rabs _) => p a b c. toR. move=> P C.
    have : (p * c <= p * ((1 - t) * a + t * b))%re by apply: Rmult_le_compat_l. lra.
  move: (\sum_i r i 0 * u.1 i 0) (\sum_i r i 0 * v.1 i 0) (\sum_i rho i 0 * Rabs ((u.1 + t *: (v.1 - u.1))%R i 0))%R (\sum_i rho i 0 * Rabs (u.1 i 0)) (\sum_i rho i 0 * Rabs (v.1 i 0)) => a b c d e. toR. lra.
Qed.

(** ** Optima. *)
Lemma frontier_concave n l (S : 'M[R]_n) (r rho : 'cV[R]_n) b1 b2 t u1 u2 u : spd S -> (forall i, Rle 0 (rho i ord0)) -> (0 <= t <= 1)%re ->
  mv_portfolio l S b1 u1 -> mv_portfolio l S b2 u2 -> mv_best r rho l S ((1 - t) * b1 + t * b2)%re u ->
  ((1 - t) * mv_value r rho u1 + t * mv_value r rho u2 <= mv_value r rho u)%re.
Proof.
  move=> HS Hr Ht H1 H2 [_ H]. have := H _ (mv_seg HS Ht H1 H2). have := value_seg r u1 u2 Hr Ht. lra.
Qed.
Lemma mv_looser n l (S : 'M[R]_n) b b' u : (b <= b')%re -> mv_portfolio l S b u -> mv_portfolio l S b' u.
Proof. move=> Hb [H1 [H2 H3]]. split=> //. split=> //. exact: Rle_trans H2 Hb. Qed.
Lemma frontier_mono n l (S : 'M[R]_n) (r rho : 'cV[R]_n) b b' u u' : (b <= b')%re -> mv_best r rho l S b u -> mv_best r rho l S b' u' ->
  (mv_value r rho u <= mv_value r rho u')%re.
Proof. move=> Hb [H1 _] [_ H2]. have := H2 _ (mv_looser Hb H1). lra. Qed.

Lemma within_looser n l l' (w : 'cV[R]_n) : looser l l' -> within l w -> within l' w.
Proof.
  move=> [L1 [L2 L3]] [H1 [H2 H3]]. split; last split.
  - move=> b Hb. move: L1. rewrite Hb /=. case E: (short_lim l) => [a|] // Hab. exact: Rle_trans (H1 _ E) Hab.
  - move=> b Hb i. move: L2. rewrite Hb /=. case E: (upper_bound l) => [a|] // Hab. exact: Rle_trans (H2 _ E i) Hab.
  - move=> b Hb i. move: L3. rewrite Hb /=. case E: (lower_bound l) => [a|] // Hab. exact: Rle_trans Hab (H3 _ E i).
Qed.
Lemma min_looser n l l' (S : 'M[R]_n) w w' : looser l l' -> minimiser (vol S) (portfolio l) w -> minimiser (vol S) (portfolio l') w' -> (vol S w' <= vol S w)%re.
Proof. move=> L [[H1 H2] _] [_ H]. apply: H. split=> //. exact: within_looser L H2. Qed.
Lemma mv_looser_limits n l l' (S : 'M[R]_n) (r rho : 'cV[R]_n) b u u' : looser l l' -> mv_best r rho l S b u -> mv_best r rho l' S b u' ->
  (mv_value r rho u <= mv_value r rho u')%re.
Proof.
  move=> L [[H1 [H2 H3]] _] [_ H]. have F : mv_portfolio l' S b u by split=> //; split=> //; exact: within_looser L H3.
  have := H _ F. lra.
Qed.
(** The least variance is concave in the covariance. *)
Lemma min_average n l (S1 S2 : 'M[R]_n) t w1 w2 w : spd S1 -> spd S2 -> (0 <= t <= 1)%re ->
  minimiser (vol S1) (portfolio l) w1 -> minimiser (vol S2) (portfolio l) w2 -> portfolio l w ->
  ((1 - t) * qf S1 w1 + t * qf S2 w2 <= qf ((1 - t)%re *: S1 + t *: S2) w)%re.
Proof.
  move=> H1 H2 Ht M1 M2 Hw. have A := vol_qf H1 M1 Hw. have B := vol_qf H2 M2 Hw. rewrite qfD !qfZ. toR.
  move: (qf S1 w1) (qf S2 w2) (qf S1 w) (qf S2 w) A B => a b c d A B. nra.
Qed.

(** ** Three backtests of one trader. *)
Lemma nth_const A B (c : A) (l : seq B) t : nth c [seq c | _ <- l] t = c.
Proof. by elim: l t => [|z l IH] [|t] //=. Qed.
Lemma mv_run n (solve : solver_t n) W (T : trader n) a sd rh W1 T1 : solve_ok solve -> trader_ok T -> well_formed W ->
  a_type a = MeanVariance -> a_sigma_des a = Some sd -> t_rhats T = Some rh -> a_rhos a = None -> consistent W (a_cons a) -> backtest solve W T a = (W1, T1, None) ->
  exists ws ob, t_ws T1 = Some ws /\ t_obj T1 = Some ob /\ forall t, (t < size (t_times T))%N ->
    ((exists u, mv_portfolio (a_limits a) (nth 0 (t_Sigmas T) t) (sd * a_adjust a)%re u) <-> nth None ws t <> None) /\
    forall x, nth None ws t = Some x -> exists u, x = (u.1, [:: u.2]) /\ mv_best (nth 0%R rh t) (0%R : 'cV[R]_n) (a_limits a) (nth 0 (t_Sigmas T) t) (sd * a_adjust a)%re u /\ nth 0 ob t = mv_value (nth 0 rh t) 0 u.
Proof.
  move=> So HT HW A1 A2 A3 A4 C E. have := @C70_mean_variance n solve W T a sd rh [seq 0 | _ <- t_times T] So HT HW A1 A2 A3. rewrite A4 E => /(_ erefl) [//|[[//]|[_ [ws [ob [F1 [F2 [_ H]]]]]]]].
  exists ws, ob. split=> //. split=> // t Ht. case: H => [[_ [_ H]]|H].
  - have [u [N [M O]]] := H t Ht. have E0 : nth (0 : 'cV[R]_n) [seq (0 : 'cV[R]_n) | _ <- t_times T] t = 0 by apply: nth_const.
    rewrite E0 in M O. split; first by rewrite N; split=> // _; exists u; exact: (proj1 M). move=> x. rewrite N => -[<-]. by exists u.
  - have [N D] := H t Ht. rewrite N. split=> //. split=> // F. by case: D => [/(_ C)|/(_ F)].
Qed.
Section Three.
  Variables (n : nat) (T : trader n) (rh : seq 'cV[R]_n) (l : limits) (af : R).
  Hypothesis HT : trader_ok T. Hypothesis Hrh : t_rhats T = Some rh.
  Lemma three s1 s2 s3 W1 W2 W3 a1 a2 a3 b1 b2 sd1 sd2 t U1 U2 U3 X1 X2 X3 : (0 <= t <= 1)%re ->
    mv_call T l af s1 W1 a1 b1 U1 X1 -> mv_call T l af s2 W2 a2 b2 U2 X2 -> mv_call T l af s3 W3 a3 ((1 - t) * b1 + t * b2)%re U3 X3 ->
    forall ws1 ws2, t_ws X1 = Some ws1 -> t_ws X2 = Some ws2 -> t_obj X1 = Some sd1 -> t_obj X2 = Some sd2 ->
    exists ws3 ob3, t_ws X3 = Some ws3 /\ t_obj X3 = Some ob3 /\ forall d, (d < size (t_times T))%N -> nth None ws1 d <> None -> nth None ws2 d <> None ->
      nth None ws3 d <> None /\ ((1 - t) * nth R0 sd1 d + t * nth R0 sd2 d <= nth R0 ob3 d)%re.
  Proof.
    move=> Ht [A1 [A2 [A3 [A4 [A5 [A6 [A7 [A8 A9]]]]]]]] [B1 [B2 [B3 [B4 [B5 [B6 [B7 [B8 B9]]]]]]]] [C1 [C2 [C3 [C4 [C5 [C6 [C7 [C8 C9]]]]]]]] ws1 ws2 E1 E2 O1 O2.
    have [v1 [o1 [P1 [P2 P3]]]] := mv_run A1 HT A2 A4 A5 Hrh A6 A3 A9. have [v2 [o2 [Q1 [Q2 Q3]]]] := mv_run B1 HT B2 B4 B5 Hrh B6 B3 B9. have [v3 [o3 [D1 [D2 R3]]]] := mv_run C1 HT C2 C4 C5 Hrh C6 C3 C9.
    move: P1 P2 Q1 Q2. rewrite E1 E2 O1 O2 => -[?] [?] [?] [?]. subst v1 v2 o1 o2.
    exists v3, o3. split=> //. split=> // d Hd N1 N2. have HS : spd (nth 0 (t_Sigmas T) d) by case: HT => [Es [_ [_ [_ [H _]]]]]; apply: H; apply: mem_nth; rewrite Es.
    have [_ K1] := P3 d Hd. have [_ K2] := Q3 d Hd. have [[F3 _] K3] := R3 d Hd.
    case E : (nth None ws1 d) N1 => [x1|] // _. case E' : (nth None ws2 d) N2 => [x2|] // _.
    have [u1 [_ [M1 L1]]] := K1 _ E. have [u2 [_ [M2 L2]]] := K2 _ E'. rewrite C7 C8 in F3 K3. rewrite A7 A8 in M1. rewrite B7 B8 in M2.
    have Eb : (((1 - t) * b1 + t * b2) * af = (1 - t) * (b1 * af) + t * (b2 * af))%re by ring. rewrite Eb in F3 K3.
    have Hf := mv_seg HS Ht (proj1 M1) (proj1 M2). have N3 := F3 (ex_intro _ _ Hf). split=> //.
    case E3 : (nth None v3 d) N3 => [x3|] // _. have [u3 [_ [M3 L3]]] := K3 _ E3. change R0 with (0%R : R). rewrite L1 L2 L3.
    apply: (frontier_concave HS _ Ht (proj1 M1) (proj1 M2) M3) => i. rewrite mxE. exact: Rle_refl.
  Qed.
End Three.
