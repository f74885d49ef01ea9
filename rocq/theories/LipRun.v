(** * How far volatilities and covariances move when the returns move. *)
From Coq Require Import String Reals Lra Psatz List Bool ZArith Arith Lia.
From Verif Require Import Num Py ListFacts Ewma Spec SpecEwma EwmaReal EwmaClosed EwmaProps EwmaProps3 CmPos ClipMono RoundLip RoundPipe SpecForget ForgetReal ForgetRun.
Import ListNotations.
Local Open Scope R_scope.

Lemma ewavg_le b u v k : 0 < b < 1 -> (forall s, (s <= k)%nat -> u s <= v s) -> ewavg b u k <= ewavg b v k.
Proof.
  intros Hb H. assert (A := ewavg_nonneg b Hb (fun s => v s - u s) k ltac:(intros s Hs; assert (Z := H s Hs); lra)).
  assert (E : ewavg b (fun s => v s - u s) k = ewavg b v k - ewavg b u k).
  { unfold ewavg. rewrite (rsum_ext _ (fun s => b ^ (k - s) * (v s - u s)) (fun s => b ^ (k - s) * v s + (-1) * (b ^ (k - s) * u s))) by (intros; ring). rewrite rsum_plus, rsum_scal. unfold Rdiv. ring. }
  lra.
Qed.
Lemma ewavg_lin b u v p q k : ewavg b (fun s => p * u s + q * v s) k = p * ewavg b u k + q * ewavg b v k.
Proof.
  unfold ewavg. rewrite (rsum_ext _ (fun s => b ^ (k - s) * (p * u s + q * v s)) (fun s => p * (b ^ (k - s) * u s) + q * (b ^ (k - s) * v s))) by (intros; ring).
  rewrite rsum_plus, !rsum_scal. unfold Rdiv. ring.
Qed.
(** One side of the triangle inequality for weighted root mean squares. *)
Lemma ewstd_tri h x y k e : 0 < h -> (forall s, (s <= k)%nat -> Rabs (x s - y s) <= e) -> ewstd h x k <= ewstd h y k + e.
Proof.
  intros Hh H. assert (Hb := decay_bounds h Hh). assert (E0 : 0 <= e) by (eapply Rle_trans; [apply Rabs_pos|apply (H k); lia]).
  assert (SQ : forall s, (s <= k)%nat -> (x s - y s) ^ 2 <= e ^ 2) by (intros s Hs; rewrite <- pow2_abs; apply pow_incr; split; [apply Rabs_pos|apply H, Hs]).
  set (A := ewavg (decay h) (fun s => y s ^ 2) k). assert (A0 : 0 <= A) by (apply (ewavg_nonneg _ Hb); intros; apply pow2_ge_0).
  unfold ewstd. fold A. assert (S0 := sqrt_pos A). assert (SS : sqrt A * sqrt A = A) by (apply sqrt_sqrt; exact A0).
  rewrite <- (sqrt_pow2 (sqrt A + e)) by lra. apply sqrt_le_1_alt.
  destruct (Rle_lt_or_eq_dec _ _ E0) as [E1|E1].
  - destruct (Rle_lt_or_eq_dec _ _ S0) as [S1|S1].
    + set (t := e / sqrt A). assert (T0 : 0 < t) by (apply Rdiv_lt_0_compat; lra).
      apply Rle_trans with (ewavg (decay h) (fun s => (1 + t) * y s ^ 2 + (1 + / t) * e ^ 2) k).
      * apply ewavg_le; [exact Hb|]. intros s Hs. apply Rle_trans with ((1 + t) * y s ^ 2 + (1 + / t) * (x s - y s) ^ 2).
        -- assert (0 <= / t * (t * y s - (x s - y s)) ^ 2) by (apply Rmult_le_pos; [apply Rlt_le, Rinv_0_lt_compat, T0|apply pow2_ge_0]).
           replace ((1 + t) * y s ^ 2 + (1 + / t) * (x s - y s) ^ 2) with (x s ^ 2 + / t * (t * y s - (x s - y s)) ^ 2) by (field; lra). lra.
        -- apply Rplus_le_compat_l. apply Rmult_le_compat_l; [assert (0 < / t) by (apply Rinv_0_lt_compat, T0); lra|apply SQ, Hs].
      * rewrite (ewavg_lin (decay h) (fun s => y s ^ 2) (fun _ => e ^ 2)). rewrite (ewavg_const _ _ _ Hb). fold A. right. assert (FE : forall r, 0 < r -> r * r = A -> (1 + e / r) * A + (1 + / (e / r)) * e ^ 2 = (r + e) ^ 2) by (intros r R0 R1; rewrite <- R1; field; lra). apply FE; [exact S1|exact SS].
    + assert (AZ : A = 0) by (rewrite <- SS, <- S1; ring). apply Rle_trans with (ewavg (decay h) (fun _ => e ^ 2) k).
      * apply ewavg_le; [exact Hb|]. intros s Hs. assert (Y : y s ^ 2 = 0) by (apply (proj1 (ewavg_zero_iff _ Hb (fun s => y s ^ 2) k ltac:(intros; apply pow2_ge_0))); [exact AZ|exact Hs]).
        assert (Y0 : y s = 0) by nra. assert (Q := SQ s Hs). rewrite Y0, Rminus_0_r in Q. exact Q.
      * rewrite ewavg_const by exact Hb. rewrite <- S1, Rplus_0_l. lra.
  - rewrite <- E1, Rplus_0_r. assert (EX : ewavg (decay h) (fun s => x s ^ 2) k = A).
    { apply EwmaClosed.ewavg_ext. intros s Hs. assert (Z := SQ s Hs). rewrite <- E1 in Z. assert (x s - y s = 0) by nra. replace (x s) with (y s) by lra. reflexivity. }
    rewrite EX. rewrite pow2_sqrt by exact A0. lra.
Qed.
Lemma ewstd_lip h x y k e : 0 < h -> (forall s, (s <= k)%nat -> Rabs (x s - y s) <= e) -> Rabs (ewstd h x k - ewstd h y k) <= e.
Proof.
  intros Hh H. assert (A := ewstd_tri h x y k e Hh H). assert (B := ewstd_tri h y x k e Hh ltac:(intros s Hs; rewrite Rabs_minus_sym; apply H, Hs)). apply Rabs_le. lra.
Qed.

Section Two.
  Context (x y : nat -> nat -> R) (hv hc M w g e : R) (p q n T : nat).
  Hypothesis Hv : 0 < hv.
  Hypothesis Hc : 0 < hc.
  Hypothesis W0 : 0 < w.
  Hypothesis G0 : 0 < g.
  Hypothesis Hn : (0 < n)%nat.
  Hypothesis HX : forall j k, (j < n)%nat -> (k < T)%nat -> Rabs (x j k) <= M.
  Hypothesis HY : forall j k, (j < n)%nat -> (k < T)%nat -> Rabs (y j k) <= M.
  Hypothesis HD : forall j k, (j < n)%nat -> (k < T)%nat -> Rabs (x j k - y j k) <= e.
  Hypothesis HW : forall j k, (j < n)%nat -> (p <= k < T)%nat -> w <= ewstd hv (x j) k.
  Hypothesis HW' : forall j k, (j < n)%nat -> (p <= k < T)%nat -> w <= ewstd hv (y j) k.
  Hypothesis HG : forall j i, (j < n)%nat -> (q <= i)%nat -> (p + i < T)%nat -> g <= std_moment hv hc p x i j j.
  Hypothesis HG' : forall j i, (j < n)%nat -> (q <= i)%nat -> (p + i < T)%nat -> g <= std_moment hv hc p y i j j.
  Let bb := decay_bounds hv Hv.
  Let cb := decay_bounds hc Hc.
  Let Z := M / w.
  Lemma vle (z : nat -> R) k : (forall s, (s <= k)%nat -> Rabs (z s) <= M) -> ewstd hv z k <= M.
  Proof.
    intros H. assert (M0 : 0 <= M) by (eapply Rle_trans; [apply Rabs_pos|apply (H k); lia]). rewrite <- (sqrt_pow2 M) by exact M0. unfold ewstd. apply sqrt_le_1_alt.
    eapply Rle_trans; [apply Rle_abs|]. apply ewavg_abs; [exact bb|]. intros s Hs. rewrite Rabs_right; [apply sq_range, H, Hs|apply Rle_ge, pow2_ge_0].
  Qed.
  Lemma wM k : (p <= k < T)%nat -> w <= M.
  Proof. intros H. eapply Rle_trans; [apply (HW 0 k Hn H)|]. apply vle. intros s Hs. apply HX; [exact Hn|lia]. Qed.
  Lemma oneZ k : (p <= k < T)%nat -> 1 <= Z.
  Proof. intros H. assert (A := wM k H). unfold Z. apply Rmult_le_reg_r with w; [exact W0|]. unfold Rdiv. rewrite Rmult_assoc, Rinv_l by lra. lra. Qed.
  Lemma zx j i : (j < n)%nat -> (p + i < T)%nat -> Rabs (std_return hv p x j i) <= Z.
  Proof. intros Hj Hi. unfold std_return. apply abs_div_le; [exact W0|apply HW; [exact Hj|lia]|apply HX; assumption]. Qed.
  Lemma zy j i : (j < n)%nat -> (p + i < T)%nat -> Rabs (std_return hv p y j i) <= Z.
  Proof. intros Hj Hi. unfold std_return. apply abs_div_le; [exact W0|apply HW'; [exact Hj|lia]|apply HY; assumption]. Qed.
  Lemma ep j k : (j < n)%nat -> (k < T)%nat -> 0 <= e.
  Proof. intros Hj Hk. eapply Rle_trans; [apply Rabs_pos|apply (HD j k); assumption]. Qed.
  Lemma vd j k : (j < n)%nat -> (k < T)%nat -> Rabs (ewstd hv (x j) k - ewstd hv (y j) k) <= e.
  Proof. intros Hj Hk. apply ewstd_lip; [exact Hv|]. intros s Hs. apply HD; [exact Hj|lia]. Qed.
  Lemma zd j i : (j < n)%nat -> (p + i < T)%nat -> Rabs (std_return hv p x j i - std_return hv p y j i) <= 2 * Z * e / w.
  Proof.
    intros Hj Hi. unfold std_return. assert (A := HW j (p + i)%nat Hj ltac:(lia)). assert (B := HW' j (p + i)%nat Hj ltac:(lia)). assert (D := vd j (p + i) Hj Hi). assert (DX := HD j (p + i)%nat Hj Hi).
    assert (Y := HY j (p + i)%nat Hj Hi). assert (E0 := ep j (p + i)%nat Hj Hi). assert (ZZ := oneZ (p + i) ltac:(lia)).
    set (S := ewstd hv (x j) (p + i)) in *. set (S' := ewstd hv (y j) (p + i)) in *. set (u := x j (p + i)%nat) in *. set (v := y j (p + i)%nat) in *.
    replace (u / S - v / S') with ((u - v) / S + - (v / S') * ((S - S') / S)) by (field; lra). eapply Rle_trans; [apply Rabs_triang|]. rewrite Rabs_mult, Rabs_Ropp.
    assert (T1 : Rabs ((u - v) / S) <= e / w) by (apply abs_div_le; assumption). assert (T2 : Rabs (v / S') <= Z) by (apply abs_div_le; assumption). assert (T3 : Rabs ((S - S') / S) <= e / w) by (apply abs_div_le; assumption).
    assert (T4 : Rabs (v / S') * Rabs ((S - S') / S) <= Z * (e / w)) by (apply Rmult_le_compat; try apply Rabs_pos; assumption).
    assert (T5 : 0 <= e / w) by (apply Rmult_le_pos; [exact E0|apply Rlt_le, Rinv_0_lt_compat, W0]). replace (2 * Z * e / w) with (Z * (e / w) + Z * (e / w)) by (field; lra). nra.
  Qed.
  Lemma md i a b : (a < n)%nat -> (b < n)%nat -> (p + i < T)%nat -> Rabs (std_moment hv hc p x i a b - std_moment hv hc p y i a b) <= 4 * Z ^ 2 * e / w.
  Proof.
    intros Ha Hb Hi. unfold std_moment. apply ewavg_dist; [exact cb|]. intros s Hs.
    assert (A := zd a s Ha ltac:(lia)). assert (B := zd b s Hb ltac:(lia)). assert (A1 := zx b s Hb ltac:(lia)). assert (B1 := zy a s Ha ltac:(lia)).
    set (a1 := std_return hv p x a s) in *. set (e1 := std_return hv p x b s) in *. set (a2 := std_return hv p y a s) in *. set (e2 := std_return hv p y b s) in *.
    replace (a1 * e1 - a2 * e2) with ((a1 - a2) * e1 + a2 * (e1 - e2)) by ring. eapply Rle_trans; [apply Rabs_triang|]. rewrite !Rabs_mult.
    assert (F1 : Rabs (a1 - a2) * Rabs e1 <= 2 * Z * e / w * Z) by (apply Rmult_le_compat; try apply Rabs_pos; assumption).
    assert (F2 : Rabs a2 * Rabs (e1 - e2) <= Z * (2 * Z * e / w)) by (apply Rmult_le_compat; try apply Rabs_pos; assumption).
    replace (4 * Z ^ 2 * e / w) with (2 * Z * e / w * Z + Z * (2 * Z * e / w)) by (field; lra). lra.
  Qed.
  Lemma mle i a z : (a < n)%nat -> (forall s, (s <= i)%nat -> Rabs (std_return hv p z a s) <= Z) -> std_moment hv hc p z i a a <= Z ^ 2.
  Proof.
    intros Ha H. eapply Rle_trans; [apply Rle_abs|]. apply ewavg_abs; [exact cb|]. intros s Hs. rewrite Rabs_mult. replace (Z ^ 2) with (Z * Z) by ring. apply Rmult_le_compat; try apply Rabs_pos; apply H; exact Hs.
  Qed.
  Definition cor (z : nat -> nat -> R) (i a b : nat) : R := std_moment hv hc p z i a b / (sqrt (std_moment hv hc p z i a a) * sqrt (std_moment hv hc p z i b b)).
  Theorem cov_lip i a b : (a < n)%nat -> (b < n)%nat -> (q <= i)%nat -> (p + i < T)%nat ->
    Rabs (ewstd hv (x a) (p + i) * ewstd hv (x b) (p + i) * cor x i a b - ewstd hv (y a) (p + i) * ewstd hv (y b) (p + i) * cor y i a b) <= 10 * M * (M / w) ^ 5 / g ^ 2 * e.
  Proof.
    intros Ha Hb Hq Hi. fold Z. assert (ZZ := oneZ (p + i) ltac:(lia)). assert (MM := wM (p + i) ltac:(lia)). assert (E0 := ep a (p + i)%nat Ha Hi).
    set (mu := 4 * Z ^ 2 * e / w). set (Q := Z ^ 2).
    assert (UP : forall j, (j < n)%nat -> g <= std_moment hv hc p x i j j <= Q) by (intros j Hj; split; [apply HG; lia|apply mle; auto; intros s Hs; apply zx; auto; lia]).
    assert (UP' : forall j, (j < n)%nat -> g <= std_moment hv hc p y i j j <= Q) by (intros j Hj; split; [apply HG'; lia|apply mle; auto; intros s Hs; apply zy; auto; lia]).
    assert (GQ : g <= Q) by (assert (A := UP a Ha); lra).
    assert (CS : forall z u v, 0 < std_moment hv hc p z i u u -> 0 < std_moment hv hc p z i v v -> Rabs (std_moment hv hc p z i u v) <= sqrt (std_moment hv hc p z i u u) * sqrt (std_moment hv hc p z i v v)).
    { intros z u v. apply (ewavg_cs (decay hc) (fun s => std_return hv p z u s) (fun s => std_return hv p z v s) i cb). }
    assert (U1 := UP a Ha). assert (U2 := UP b Hb). assert (U3 := UP' a Ha). assert (U4 := UP' b Hb).
    assert (K : Rabs (cor x i a b - cor y i a b) <= 2 * Q * mu / g ^ 2) by (apply corr_close; auto; [apply CS; lra|..]; apply md; assumption).
    assert (K1 : Rabs (cor y i a b) <= 1) by (apply corr_le; try lra; apply CS; lra).
    set (C := cor x i a b) in *. set (C' := cor y i a b) in *.
    assert (V1 := vd a (p + i) Ha Hi). assert (V2 := vd b (p + i) Hb Hi).
    assert (L1 : w <= ewstd hv (x a) (p + i) <= M) by (split; [apply HW; lia|apply vle; intros s Hs; apply HX; lia]).
    assert (L2 : w <= ewstd hv (x b) (p + i) <= M) by (split; [apply HW; lia|apply vle; intros s Hs; apply HX; lia]).
    assert (L3 : w <= ewstd hv (y a) (p + i) <= M) by (split; [apply HW'; lia|apply vle; intros s Hs; apply HY; lia]).
    set (s1 := ewstd hv (x a) (p + i)) in *. set (s2 := ewstd hv (x b) (p + i)) in *. set (t1 := ewstd hv (y a) (p + i)) in *. set (t2 := ewstd hv (y b) (p + i)) in *.
    replace (s1 * s2 * C - t1 * t2 * C') with (s1 * s2 * (C - C') + ((s1 - t1) * s2 + t1 * (s2 - t2)) * C') by ring.
    eapply Rle_trans; [apply Rabs_triang|]. rewrite !Rabs_mult.
    assert (F1 : Rabs s1 * Rabs s2 * Rabs (C - C') <= M * M * (2 * Q * mu / g ^ 2)).
    { apply Rmult_le_compat; [apply Rmult_le_pos; apply Rabs_pos|apply Rabs_pos| |exact K]. rewrite (Rabs_right s1), (Rabs_right s2) by lra. apply Rmult_le_compat; lra. }
    assert (F2 : Rabs ((s1 - t1) * s2 + t1 * (s2 - t2)) * Rabs C' <= (e * M + M * e) * 1).
    { apply Rmult_le_compat; [apply Rabs_pos|apply Rabs_pos| |exact K1]. eapply Rle_trans; [apply Rabs_triang|]. rewrite !Rabs_mult, (Rabs_right s2), (Rabs_right t1) by lra.
      apply Rplus_le_compat; apply Rmult_le_compat; try apply Rabs_pos; lra. }
    apply Rle_trans with (M * M * (2 * Q * mu / g ^ 2) + (e * M + M * e) * 1); [lra|].
    replace (M * M * (2 * Q * mu / g ^ 2)) with (8 * (M * e * (Z ^ 5 / g ^ 2))) by (unfold Q, mu, Z; field; lra).
    replace (10 * M * Z ^ 5 / g ^ 2 * e) with (10 * (M * e * (Z ^ 5 / g ^ 2))) by (field; lra).
    assert (Y : 1 <= Z ^ 5 / g ^ 2).
    { apply Rmult_le_reg_r with (g ^ 2); [nra|]. replace (Z ^ 5 / g ^ 2 * g ^ 2) with (Z * Q ^ 2) by (unfold Q; field; lra). assert (g ^ 2 <= Q ^ 2) by (apply pow_incr; lra). assert (0 <= Q ^ 2) by apply pow2_ge_0. nra. }
    assert (ME : 0 <= M * e) by (apply Rmult_le_pos; lra). nra.
  Qed.
End Two.
