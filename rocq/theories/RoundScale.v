(** * Accuracy of the standardised returns and of scale_cov in binary64. *)
From Coq Require Import ZArith Reals Lra Psatz Lia.
From Flocq Require Import Core BinarySingleNaN.
From Verif Require Import Num Ieee SpecRound RoundStep RoundReal RoundRun RoundSign RoundVol RoundDiag.
Local Open Scope R_scope.

Lemma abs_both x b : Rabs x <= b -> - b <= x <= b.
Proof. intros H. assert (A := Rle_abs x). assert (A2 := Rle_abs (- x)). rewrite Rabs_Ropp in A2. lra. Qed.

(** Return over volatility. *)
Lemma fadj (x v : b64) sg w M dl : isnum x -> Rabs (fval x) <= M -> isnum v -> 0 <= fval v -> 0 < w -> w <= sg -> w <= M ->
  Rabs (fval v ^ 2 - sg ^ 2) <= dl * w ^ 2 -> 128 * uu <= dl -> dl <= / 4 -> M / w <= pw 100 ->
  isnum (fdiv x v) /\ Rabs (fval (fdiv x v) - fval x / sg) <= 3 / 2 * (M / w) * dl /\ Rabs (fval v - sg) <= dl * sg /\ Rabs (fval x / sg) <= M / w.
Proof.
  intros Nx Mx Nv V0 W0 Ws WM HD D1 D2 R1. destruct uu_1 as [U _]. pose proof uu_pos as U0.
  set (X := fval x) in *. set (V := fval v) in *. set (rho := M / w) in *.
  assert (Rh : 1 <= rho). { unfold rho. apply Rmult_le_reg_r with w; [lra|]. unfold Rdiv. rewrite Rmult_assoc, Rinv_l by lra. lra. }
  assert (A1 : Rabs (V - sg) <= dl * sg).
  { apply Rmult_le_reg_r with sg; [lra|]. apply Rle_trans with (Rabs (V - sg) * (V + sg)).
    - apply Rmult_le_compat_l; [apply Rabs_pos|lra].
    - rewrite <- (Rabs_right (V + sg)) by lra. rewrite <- Rabs_mult. replace ((V - sg) * (V + sg)) with (V ^ 2 - sg ^ 2) by ring.
      eapply Rle_trans; [exact HD|]. replace (dl * sg * sg) with (dl * sg ^ 2) by ring. apply Rmult_le_compat_l; [lra|]. nra. }
  assert (A1' := abs_both _ _ A1). assert (S4 : dl * sg <= / 4 * sg) by (apply Rmult_le_compat_r; lra).
  assert (VL : 3 / 4 * sg <= V) by lra.
  assert (XS : Rabs (X / sg) <= rho).
  { unfold Rdiv. rewrite Rabs_mult, Rabs_inv, (Rabs_right sg) by lra. unfold rho, Rdiv. apply Rmult_le_compat; [apply Rabs_pos|left; apply Rinv_0_lt_compat; lra|exact Mx|].
    apply Rinv_le_contravar; lra. }
  assert (G1 : Rabs ((sg - V) / V) <= 4 / 3 * dl).
  { unfold Rdiv. rewrite Rabs_mult, Rabs_inv, (Rabs_right V) by lra. rewrite Rabs_minus_sym. apply Rmult_le_reg_r with V; [lra|].
    rewrite Rmult_assoc, Rinv_l by lra. nra. }
  assert (E1 : X / V - X / sg = X / sg * ((sg - V) / V)) by (field; lra).
  assert (A2 : Rabs (X / V - X / sg) <= rho * (4 / 3 * dl)) by (rewrite E1; apply abs_mul_le; assumption).
  assert (A3 : Rabs (X / V) <= rho * (4 / 3)).
  { replace (X / V) with ((X / V - X / sg) + X / sg) by ring. eapply Rle_trans; [apply (abs_plus _ _ _ _ A2 XS)|]. nra. }
  destruct (fdiv_val x v Nx ltac:(fold V; lra)) as [Nd Vd].
  { fold X V. eapply Rle_trans; [exact A3|]. apply Rle_trans with (pw 100 * 2); [nra|]. change 2 with (pw 1). rewrite <- bpow_plus. apply bpow_le. lia. }
  fold X V in Vd. split; [exact Nd|]. split; [|split; [exact A1|exact XS]].
  assert (Er := rd_err (X / V)). rewrite <- Vd in Er.
  assert (H1 : hh <= / 128 * uu). { unfold hh, uu. change (/ 128) with (pw (-7)). rewrite <- bpow_plus. apply bpow_le. lia. }
  assert (Er2 : Rabs (fval (fdiv x v) - X / V) <= 2 * uu * rho).
  { eapply Rle_trans; [exact Er|]. assert (uu * Rabs (X / V) <= uu * (rho * (4 / 3))) by (apply Rmult_le_compat_l; lra). nra. }
  replace (fval (fdiv x v) - X / sg) with ((fval (fdiv x v) - X / V) + (X / V - X / sg)) by ring.
  eapply Rle_trans; [apply (abs_plus _ _ _ _ Er2 A2)|]. nra.
Qed.

Lemma isqrt_near y : Rabs y <= / 8 -> 0 < 1 + y /\ Rabs (/ sqrt (1 + y) - 1) <= 2 / 3 * Rabs y.
Proof.
  intros H. assert (H' := abs_both _ _ H). split; [lra|]. set (z := sqrt (1 + y)). assert (Zz : z * z = 1 + y) by (apply sqrt_sqrt; lra).
  assert (Z0 : 0 <= z) by apply sqrt_pos. assert (Z7 : 7 / 8 <= z) by (destruct (Rle_dec (7 / 8) z); [assumption|exfalso; nra]).
  assert (E : / z - 1 = - y * / (z * (1 + z))) by (replace y with (z * z - 1) by lra; field; lra).
  rewrite E, Rabs_mult, Rabs_Ropp, Rabs_inv, (Rabs_right (z * (1 + z))) by nra. rewrite Rmult_comm. apply Rmult_le_compat_r; [apply Rabs_pos|].
  replace (2 / 3) with (/ (3 / 2)) by lra. apply Rinv_le_contravar; [lra|nra].
Qed.
Lemma finv_near (c : b64) C th ga : isnum c -> 0 < ga -> ga <= C -> Rabs (fval c - C) <= th * ga -> 1024 * uu <= th -> th <= / 8 ->
  isnum (finv c) /\ exists t, fval (finv c) = / sqrt C * (1 + t) /\ Rabs t <= 3 / 4 * th.
Proof.
  intros N G0 GC HC T1 T2. pose proof uu_pos as U0. assert (HC' := abs_both _ _ HC). assert (TG : th * ga <= / 8 * ga) by (apply Rmult_le_compat_r; lra).
  assert (P : 0 < fval c) by lra. destruct (finv_val c N P) as [Ni (q & Eq & Hq)]. split; [exact Ni|].
  set (y := (fval c - C) / C). assert (Hy : Rabs y <= th).
  { unfold y, Rdiv. rewrite Rabs_mult, Rabs_inv, (Rabs_right C) by lra. apply Rmult_le_reg_r with C; [lra|]. rewrite Rmult_assoc, Rinv_l by lra.
    assert (th * ga <= th * C) by (apply Rmult_le_compat_l; lra). lra. }
  destruct (isqrt_near y ltac:(lra)) as [Y1 Y2]. assert (Ec : fval c = C * (1 + y)) by (unfold y; field; lra).
  exists (/ sqrt (1 + y) * q - 1). split.
  - rewrite Eq, Ec, sqrt_mult by lra. assert (0 < sqrt C) by (apply sqrt_lt_R0; lra). assert (0 < sqrt (1 + y)) by (apply sqrt_lt_R0; lra). field. lra.
  - set (z := / sqrt (1 + y)) in *. replace (z * q - 1) with ((z - 1) + (q - 1) * (1 + (z - 1))) by ring.
    assert (B : Rabs (1 + (z - 1)) <= 2) by (eapply Rle_trans; [apply Rabs_triang|]; rewrite Rabs_R1; lra).
    eapply Rle_trans; [apply (abs_plus _ _ _ _ Y2 (abs_mul_le _ _ _ _ Hq B))|]. lra.
Qed.

Section Scale.
  Context (ci cj cij vi vj : b64) (Ci Cj Cij Si Sj th ga M : R).
  Hypothesis Nci : isnum ci.
  Hypothesis Ncj : isnum cj.
  Hypothesis Ncij : isnum cij.
  Hypothesis Nvi : isnum vi.
  Hypothesis Nvj : isnum vj.
  Hypothesis G0 : pw (-60) <= ga.
  Hypothesis Gi : ga <= Ci.
  Hypothesis Gj : ga <= Cj.
  Hypothesis Hi : Rabs (fval ci - Ci) <= th * ga.
  Hypothesis Hj : Rabs (fval cj - Cj) <= th * ga.
  Hypothesis Hij : Rabs (fval cij - Cij) <= th * ga.
  Hypothesis CS : Rabs Cij <= sqrt Ci * sqrt Cj.
  Hypothesis T1 : 1024 * uu <= th.
  Hypothesis T2 : th <= / 8.
  Hypothesis Cbig : Ci <= pw 200 /\ Cj <= pw 200.
  Hypothesis Vi : Rabs (fval vi - Si) <= th / 4 * Si.
  Hypothesis Vj : Rabs (fval vj - Sj) <= th / 4 * Sj.
  Hypothesis HSi : 0 <= Si <= M.
  Hypothesis HSj : 0 <= Sj <= M.
  Hypothesis HM : pw (-440) <= M <= pw 490.
  Let co := Cij / (sqrt Ci * sqrt Cj).

  Lemma co_1 : Rabs co <= 1.
  Proof.
    assert (P60 : 0 < pw (-60)) by apply bpow_gt_0. assert (0 < sqrt Ci) by (apply sqrt_lt_R0; lra). assert (0 < sqrt Cj) by (apply sqrt_lt_R0; lra).
    unfold co, Rdiv. rewrite Rabs_mult, Rabs_inv, (Rabs_right (sqrt Ci * sqrt Cj)) by nra. apply Rmult_le_reg_r with (sqrt Ci * sqrt Cj); [nra|].
    rewrite Rmult_assoc, Rinv_l by nra. lra.
  Qed.
  Lemma fcorr_near : let r := fmul (fmul (finv ci) cij) (finv cj) in isnum r /\ Rabs (fval r - co) <= 3 * th.
  Proof.
    intros r. destruct uu_1 as [U _]. pose proof uu_pos as U0. assert (P60 : 0 < pw (-60)) by apply bpow_gt_0. assert (G : 0 < ga) by lra.
    destruct (finv_near ci Ci th ga Nci G Gi Hi T1 T2) as [Ni (ti & Ei & Bi)]. destruct (finv_near cj Cj th ga Ncj G Gj Hj T1 T2) as [Nj (tj & Ej & Bj)].
    assert (si0 : 0 < sqrt Ci) by (apply sqrt_lt_R0; lra). assert (sj0 : 0 < sqrt Cj) by (apply sqrt_lt_R0; lra).
    set (si := sqrt Ci) in *. set (sj := sqrt Cj) in *.
    assert (S30 : forall C, ga <= C -> C <= pw 200 -> pw (-30) <= sqrt C <= pw 100).
    { intros C H1 H2. split.
      - replace (pw (-30)) with (sqrt (pw (-30) * pw (-30))) by (apply sqrt_square; apply bpow_ge_0). apply sqrt_le_1_alt. rewrite <- bpow_plus. simpl (-30 + -30)%Z. lra.
      - replace (pw 100) with (sqrt (pw 100 * pw 100)) by (apply sqrt_square; apply bpow_ge_0). apply sqrt_le_1_alt. rewrite <- bpow_plus. simpl (100 + 100)%Z. lra. }
    assert (Ri := S30 Ci Gi (proj1 Cbig)). assert (Rj := S30 Cj Gj (proj2 Cbig)). fold si in Ri. fold sj in Rj.
    assert (P30 : 0 < pw (-30)) by apply bpow_gt_0.
    assert (Bi' := abs_both _ _ Bi). assert (Bj' := abs_both _ _ Bj).
    assert (I30 : forall s, pw (-30) <= s -> 0 < / s <= pw 30).
    { intros s Hs. split; [apply Rinv_0_lt_compat; lra|]. replace (pw 30) with (/ pw (-30)) by (rewrite <- bpow_opp; reflexivity). apply Rinv_le_contravar; lra. }
    assert (Ii := I30 si (proj1 Ri)). assert (Ij := I30 sj (proj1 Rj)).
    assert (Vi2 : Rabs (fval (finv ci)) <= pw 30 * 2) by (rewrite Ei; apply abs_mul_le; [rewrite Rabs_right; lra|apply Rabs_le; lra]).
    assert (Vj2 : Rabs (fval (finv cj)) <= pw 30 * 2) by (rewrite Ej; apply abs_mul_le; [rewrite Rabs_right; lra|apply Rabs_le; lra]).
    (* the covariance entry *)
    set (e := (fval cij - Cij) / (si * sj)). assert (GS : ga <= si * sj).
    { unfold si, sj. rewrite <- sqrt_mult by lra. replace ga with (sqrt (ga * ga)) by (apply sqrt_square; lra). apply sqrt_le_1_alt. nra. }
    assert (He : Rabs e <= th).
    { unfold e, Rdiv. rewrite Rabs_mult, Rabs_inv, (Rabs_right (si * sj)) by nra. apply Rmult_le_reg_r with (si * sj); [nra|]. rewrite Rmult_assoc, Rinv_l by nra.
      assert (th * ga <= th * (si * sj)) by (apply Rmult_le_compat_l; lra). lra. }
    assert (Eij : fval cij = si * sj * (co + e)) by (unfold co, e; fold si sj; field; lra).
    assert (K1 := co_1). assert (K1' := abs_both _ _ K1). assert (He' := abs_both _ _ He).
    assert (Kc : Rabs (co + e) <= 9 / 8) by (apply Rabs_le; lra).
    assert (X1 : fval (finv ci) * fval cij = sj * ((co + e) * (1 + ti))) by (rewrite Ei, Eij; field; lra).
    assert (Y1 : Rabs ((co + e) * (1 + ti)) <= 9 / 8 * (35 / 32)) by (apply abs_mul_le; [exact Kc|apply Rabs_le; lra]).
    assert (X1a : Rabs (fval (finv ci) * fval cij) <= pw 100 * 2).
    { rewrite X1. apply abs_mul_le; [rewrite Rabs_right; lra|lra]. }
    assert (B1 : pw 100 * 2 <= pw 1020) by (change 2 with (pw 1); rewrite <- bpow_plus; apply bpow_le; lia).
    destruct (fmul_val (finv ci) cij Ni Ncij ltac:(lra)) as [N1 V1]. set (m1 := fmul (finv ci) cij) in *.
    assert (Er1 := rd_err (fval (finv ci) * fval cij)). rewrite <- V1 in Er1.
    set (p0 := (co + e) * (1 + ti) * (1 + tj)).
    assert (X2 : fval (finv ci) * fval cij * fval (finv cj) = p0) by (rewrite X1, Ej; unfold p0; field; lra).
    assert (P0 : Rabs (p0 - co) <= 28 / 10 * th).
    { replace (p0 - co) with (e * ((1 + ti) * (1 + tj)) + co * (ti + tj + ti * tj)) by (unfold p0; ring).
      assert (Q1 : Rabs ((1 + ti) * (1 + tj)) <= 35 / 32 * (35 / 32)) by (apply abs_mul_le; apply Rabs_le; lra).
      assert (Q2 : Rabs (ti + tj + ti * tj) <= 3 / 4 * th + 3 / 4 * th + 3 / 4 * th * (3 / 32)).
      { eapply abs_plus; [apply abs_plus; assumption|]. apply abs_mul_le; [exact Bi|]. lra. }
      eapply Rle_trans; [apply (abs_plus _ _ _ _ (abs_mul_le _ _ _ _ He Q1) (abs_mul_le _ _ _ _ K1 Q2))|]. lra. }
    assert (P0a : Rabs p0 <= 135 / 100).
    { replace p0 with (co + (p0 - co)) by ring. eapply Rle_trans; [apply (abs_plus _ _ _ _ K1 P0)|]. lra. }
    assert (hp : hh * (pw 30 * 2) <= / 100 * uu).
    { apply Rle_trans with (pw (-7) * uu); [|change (pw (-7)) with (/ 128); lra]. unfold hh, uu. change 2 with (pw 1). rewrite <- !bpow_plus. apply bpow_le. lia. }
    assert (E2 : Rabs (fval m1 * fval (finv cj) - p0) <= 136 / 100 * uu).
    { rewrite <- X2. replace (fval m1 * fval (finv cj) - fval (finv ci) * fval cij * fval (finv cj)) with ((fval m1 - fval (finv ci) * fval cij) * fval (finv cj)) by ring.
      rewrite Rabs_mult. eapply Rle_trans; [apply Rmult_le_compat_r; [apply Rabs_pos|exact Er1]|]. rewrite Rmult_plus_distr_r, Rmult_assoc, <- Rabs_mult, X2.
      assert (uu * Rabs p0 <= uu * (135 / 100)) by (apply Rmult_le_compat_l; lra). assert (hh * Rabs (fval (finv cj)) <= hh * (pw 30 * 2)) by (apply Rmult_le_compat_l; [apply Rlt_le, hh_pos|exact Vj2]). lra. }
    assert (M2a : Rabs (fval m1 * fval (finv cj)) <= 136 / 100).
    { replace (fval m1 * fval (finv cj)) with (p0 + (fval m1 * fval (finv cj) - p0)) by ring. eapply Rle_trans; [apply (abs_plus _ _ _ _ P0a E2)|]. lra. }
    assert (B2 : 2 <= pw 1020) by (apply Rle_trans with (pw 1); [apply Rle_refl|apply bpow_le; lia]).
    destruct (fmul_val m1 (finv cj) N1 Nj ltac:(lra)) as [N2 V2]. split; [exact N2|].
    assert (Er2 := rd_err (fval m1 * fval (finv cj))). fold r in V2. rewrite <- V2 in Er2.
    assert (hu : hh <= / 100 * uu). { apply Rle_trans with (pw (-7) * uu); [|change (pw (-7)) with (/ 128); lra]. unfold hh, uu. rewrite <- !bpow_plus. apply bpow_le. lia. }
    assert (Er3 : Rabs (fval r - fval m1 * fval (finv cj)) <= 2 * uu) by (assert (uu * Rabs (fval m1 * fval (finv cj)) <= uu * (136 / 100)) by (apply Rmult_le_compat_l; lra); lra).
    replace (fval r - co) with ((fval r - fval m1 * fval (finv cj)) + ((fval m1 * fval (finv cj) - p0) + (p0 - co))) by ring.
    eapply Rle_trans; [apply (abs_plus _ _ _ _ Er3 (abs_plus _ _ _ _ E2 P0))|]. lra.
  Qed.

  Lemma fscale : let r := fmul (fmul vi (fmul (fmul (finv ci) cij) (finv cj))) vj in isnum r /\ Rabs (fval r - Si * Sj * co) <= 4 * th * M ^ 2.
  Proof.
    intros r. destruct fcorr_near as [Nr Hr]. set (rh := fmul (fmul (finv ci) cij) (finv cj)) in *. destruct uu_1 as [U _]. pose proof uu_pos as U0.
    assert (P440 : 0 < pw (-440)) by apply bpow_gt_0. assert (M0 : 0 < M) by lra. assert (K1 := co_1). assert (K1' := abs_both _ _ K1). assert (Hr' := abs_both _ _ Hr).
    assert (Ra : Rabs (fval rh) <= 3 / 2) by (apply Rabs_le; lra).
    assert (Vi' := abs_both _ _ Vi). assert (Vj' := abs_both _ _ Vj).
    assert (t4 : th / 4 <= / 32) by lra.
    assert (Ti : th / 4 * Si <= / 32 * Si) by (apply Rmult_le_compat_r; lra). assert (Tj : th / 4 * Sj <= / 32 * Sj) by (apply Rmult_le_compat_r; lra).
    assert (Vim : Rabs (fval vi) <= 33 / 32 * M) by (apply Rabs_le; lra). assert (Vjm : Rabs (fval vj) <= 33 / 32 * M) by (apply Rabs_le; lra).
    assert (Bm : 8 * M <= pw 1020). { apply Rle_trans with (pw 3 * pw 490); [change (pw 3) with 8; lra|]. rewrite <- bpow_plus. apply bpow_le. lia. }
    assert (MM : M * M <= pw 490 * pw 490) by nra. rewrite <- bpow_plus in MM. simpl (490 + 490)%Z in MM.
    assert (Bmm : 8 * (M * M) <= pw 1020). { apply Rle_trans with (pw 3 * pw 980); [change (pw 3) with 8; lra|]. rewrite <- bpow_plus. apply bpow_le. lia. }
    assert (X1 : Rabs (fval vi * fval rh) <= 33 / 32 * M * (3 / 2)) by (apply abs_mul_le; assumption).
    destruct (fmul_val vi rh Nvi Nr ltac:(lra)) as [N1 V1]. set (n1 := fmul vi rh) in *. assert (Er1 := rd_err (fval vi * fval rh)). rewrite <- V1 in Er1.
    set (Q := fval vi * fval rh * fval vj). assert (Qa : Rabs Q <= 33 / 32 * M * (3 / 2) * (33 / 32 * M)) by (apply abs_mul_le; assumption).
    assert (MMp : 0 < M * M) by nra.
    assert (hM : hh * (33 / 32 * M) <= / 100 * (uu * (M * M))).
    { assert (hh <= / 128 * uu * pw (-440)). { unfold hh, uu. change (/ 128) with (pw (-7)). rewrite <- !bpow_plus. apply bpow_le. lia. }
      assert (/ 128 * uu * pw (-440) <= / 128 * uu * M) by (apply Rmult_le_compat_l; lra). pose proof hh_pos. nra. }
    assert (UM : 0 < uu * (M * M)) by (apply Rmult_lt_0_compat; lra). assert (UM1 : uu * (M * M) <= / 1024 * (M * M)) by (apply Rmult_le_compat_r; lra).
    assert (E1 : Rabs (fval n1 * fval vj - Q) <= 2 * (uu * (M * M))).
    { unfold Q. replace (fval n1 * fval vj - fval vi * fval rh * fval vj) with ((fval n1 - fval vi * fval rh) * fval vj) by ring. rewrite Rabs_mult.
      eapply Rle_trans; [apply Rmult_le_compat_r; [apply Rabs_pos|exact Er1]|]. rewrite Rmult_plus_distr_r, Rmult_assoc, <- Rabs_mult. fold Q.
      assert (uu * Rabs Q <= uu * (33 / 32 * M * (3 / 2) * (33 / 32 * M))) by (apply Rmult_le_compat_l; lra).
      assert (hh * Rabs (fval vj) <= hh * (33 / 32 * M)) by (apply Rmult_le_compat_l; [apply Rlt_le, hh_pos|exact Vjm]). lra. }
    assert (n1a : Rabs (fval n1 * fval vj) <= 2 * (M * M)).
    { replace (fval n1 * fval vj) with (Q + (fval n1 * fval vj - Q)) by ring. eapply Rle_trans; [apply (abs_plus _ _ _ _ Qa E1)|]. lra. }
    destruct (fmul_val n1 vj N1 Nvj ltac:(lra)) as [N2 V2]. split; [exact N2|]. fold r in V2. assert (Er2 := rd_err (fval n1 * fval vj)). rewrite <- V2 in Er2.
    assert (hMM : hh <= / 100 * (uu * (M * M))).
    { apply Rle_trans with (/ 128 * uu * (pw (-440) * pw (-440))); [unfold hh, uu; change (/ 128) with (pw (-7)); rewrite <- !bpow_plus; apply bpow_le; lia|].
      assert (pw (-440) * pw (-440) <= M * M) by nra. nra. }
    assert (Er3 : Rabs (fval r - fval n1 * fval vj) <= 3 * (uu * (M * M))) by (assert (uu * Rabs (fval n1 * fval vj) <= uu * (2 * (M * M))) by (apply Rmult_le_compat_l; lra); lra).
    (* the exact product *)
    set (di := fval vi - Si) in *. set (dj := fval vj - Sj) in *. set (dr := fval rh - co) in *.
    assert (QE : Q - Si * Sj * co = di * fval vj * fval rh + Si * dj * fval rh + Si * Sj * dr) by (unfold Q, di, dj, dr; ring).
    assert (Di : Rabs di <= th / 4 * M) by (eapply Rle_trans; [exact Vi|]; apply Rmult_le_compat_l; lra).
    assert (Dj : Rabs dj <= th / 4 * M) by (eapply Rle_trans; [exact Vj|]; apply Rmult_le_compat_l; lra).
    assert (Sia : Rabs Si <= M) by (rewrite Rabs_right; lra). assert (Sja : Rabs Sj <= M) by (rewrite Rabs_right; lra).
    assert (Q3 : Rabs (Q - Si * Sj * co) <= th / 4 * M * (33 / 32 * M) * (3 / 2) + M * (th / 4 * M) * (3 / 2) + M * M * (3 * th)).
    { rewrite QE. apply abs_plus; [apply abs_plus|]; apply abs_mul_le; auto; apply abs_mul_le; auto. }
    assert (Q4 : Rabs (Q - Si * Sj * co) <= 39 / 10 * (th * (M * M))) by (eapply Rle_trans; [exact Q3|]; assert (0 < th * (M * M)) by (apply Rmult_lt_0_compat; lra); lra).
    replace (fval r - Si * Sj * co) with ((fval r - fval n1 * fval vj) + ((fval n1 * fval vj - Q) + (Q - Si * Sj * co))) by ring.
    eapply Rle_trans; [apply (abs_plus _ _ _ _ Er3 (abs_plus _ _ _ _ E1 Q4))|].
    assert (UT : uu * (M * M) <= / 1024 * th * (M * M)) by (apply Rmult_le_compat_r; lra). lra.
  Qed.
End Scale.
