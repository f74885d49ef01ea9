(** * The EWMA of nonnegative numbers stays nonnegative in binary64. *)
From Coq Require Import ZArith Reals Lra Psatz Lia.
From Flocq Require Import Core BinarySingleNaN.
From Verif Require Import Num Ieee SpecRound RoundStep.
Local Open Scope R_scope.

Definition eta : R := pw (-1074).
Lemma eta_pos : 0 < eta. Proof. apply bpow_gt_0. Qed.
Lemma rd_opp x : rd (- x) = - rd x.
Proof. apply round_NE_opp. Qed.
Lemma rd_rd x : rd (rd x) = rd x.
Proof. apply round_generic; [apply valid_rnd_N|]. apply generic_format_round; [apply fexp_correct; reflexivity|apply valid_rnd_N]. Qed.
Lemma rd_grid x : exists k : Z, rd x = IZR k * eta.
Proof.
  assert (G : generic_format radix2 (FLT_exp (-1074) 53) (rd x)) by (apply generic_format_round; [apply (FLT_exp_valid (-1074) 53)|apply valid_rnd_N]).
  apply (generic_format_FIX_FLT radix2 (-1074) 53) in G. apply FIX_format_generic in G. destruct G as [[m e] Ef He]. exists m. rewrite Ef. unfold F2R. simpl in *. subst e. reflexivity.
Qed.
Lemma rd_tiny x : Rabs x < pw (-1021) -> Rabs (rd x - x) <= / 2 * eta.
Proof.
  intros H. eapply Rle_trans; [apply (error_le_half_ulp radix2 (FLT_exp (-1074) 53))|]. rewrite (ulp_FLT_small radix2 (-1074) 53 x H). apply Rle_refl.
Qed.

Section Sign.
  Context (be pv bm X E : R).
  Let al := 1 - be.
  Hypothesis Hbe : / 8 <= be.
  Hypothesis Hal : pw (-24) <= al.
  Hypothesis Hbm : 0 <= bm <= be * be.
  Hypothesis Hpv : Rabs (pv - bm) <= 2 * uu.
  Hypothesis HX : 0 <= X.
  Hypothesis HE : 0 <= E.
  Hypothesis FE : rd E = E.
  Let a := rd al.
  Let D := rd (1 - pv).

  Lemma uu_al : 32 * uu <= al * al.
  Proof.
    assert (P : 0 < pw (-24)) by apply bpow_gt_0. apply Rle_trans with (pw (-24) * pw (-24)).
    - rewrite <- bpow_plus. unfold uu. change 32 with (pw 5). rewrite <- bpow_plus. apply Rle_refl.
    - nra.
  Qed.
  Lemma uu_1 : uu <= / 1048576 /\ hh <= uu * uu * uu.
  Proof.
    unfold uu, hh. split; [change (/ 1048576) with (pw (-20)); apply bpow_le; lia|]. rewrite <- !bpow_plus. apply bpow_le. lia.
  Qed.
  Lemma a_bounds : 0 <= a <= al * (1 + 2 * uu).
  Proof.
    pose proof uu_pos as U. destruct uu_1 as [U1 H1]. pose proof hh_pos as H0. assert (A0 : 0 < al) by (pose proof (bpow_gt_0 radix2 (-24)); lra).
    assert (UA := uu_al). assert (A1 : al <= 1) by (unfold al; lra).
    split; [unfold a; rewrite <- rd_0; apply rd_le; lra|]. assert (Q := rd_err al). fold a in Q. rewrite (Rabs_right al) in Q by lra.
    assert (G := Rle_abs (a - al)). assert (hh <= uu * al) by nra. lra.
  Qed.
  Lemma D_bound : al * (1 + be) - 4 * uu <= D.
  Proof.
    pose proof uu_pos as U. destruct uu_1 as [U1 H1]. assert (G := Rle_abs (pv - bm)). assert (G2 := Rle_abs (- (pv - bm))). rewrite Rabs_Ropp in G2.
    assert (A1 : 0 < al <= 1) by (pose proof (bpow_gt_0 radix2 (-24)); unfold al in *; lra).
    assert (Q := rd_err (1 - pv)). fold D in Q. assert (B : Rabs (1 - pv) <= 1 + 2 * uu) by (apply Rabs_le; unfold al in *; split; nra).
    assert (G3 := Rle_abs (- (D - (1 - pv)))). rewrite Rabs_Ropp in G3. assert (uu * Rabs (1 - pv) <= uu * (1 + 2 * uu)) by (apply Rmult_le_compat_l; lra).
    assert (al * (1 + be) = 1 - be * be) by (unfold al; ring). nra.
  Qed.
  Lemma D_pos : 0 < D.
  Proof.
    pose proof D_bound as B. pose proof uu_al as UA. pose proof uu_pos as U. assert (A1 : 0 < al <= 1) by (pose proof (bpow_gt_0 radix2 (-24)); unfold al in *; lra). nra.
  Qed.
  (** Sufficient: the correction is at most the old value. *)
  Lemma sign_enough : rd (rd (a * rd (X - E)) / D) >= - E -> 0 <= rd (E + rd (rd (a * rd (X - E)) / D)).
  Proof. intros H. rewrite <- rd_0. apply rd_le. lra. Qed.
  Lemma sign_neg : X < E -> let p := rd (a * rd (X - E)) in - rd (a * E) <= p <= 0.
  Proof.
    intros H p. destruct a_bounds as [A0 A1]. assert (Dn : - E <= rd (X - E)).
    { rewrite <- FE, <- rd_opp. apply rd_le. rewrite FE. lra. }
    assert (Dp : rd (X - E) <= 0) by (rewrite <- rd_0; apply rd_le; lra).
    split; unfold p; [rewrite <- rd_opp; apply rd_le; nra|rewrite <- rd_0; apply rd_le; nra].
  Qed.
  Lemma core_ineq : al * be * / 2 >= 4 * uu / al + 8 * uu.
  Proof.
    assert (A1 : 0 < al <= 1) by (pose proof (bpow_gt_0 radix2 (-24)); unfold al in *; lra). pose proof uu_al as UA. pose proof uu_pos as U. destruct uu_1 as [U1 _].
    assert (V : 4 * uu / al <= al / 8).
    { apply Rmult_le_reg_r with al; [lra|]. unfold Rdiv. rewrite Rmult_assoc, Rinv_l by lra. nra. }
    destruct (Rle_dec al (/ 2)) as [S|S].
    - assert (be >= / 2) by (unfold al in *; lra). assert (8 * uu <= al / 16) by nra. nra.
    - assert (V2 : 4 * uu / al <= 8 * uu).
      { apply Rmult_le_reg_r with al; [lra|]. unfold Rdiv. rewrite Rmult_assoc, Rinv_l by lra. nra. }
      nra.
  Qed.

  Lemma sign_large : X < E -> pw (-1030) <= E -> rd (rd (a * rd (X - E)) / D) >= - E.
  Proof.
    intros HXE HL. destruct (sign_neg HXE) as [P1 P2]. set (p := rd (a * rd (X - E))) in *. destruct a_bounds as [A0 A1].
    pose proof D_bound as B. pose proof D_pos as D0. pose proof core_ineq as CI. pose proof uu_pos as U. destruct uu_1 as [U1 H1]. pose proof hh_pos as H0.
    assert (A2 : 0 < al <= 1) by (pose proof (bpow_gt_0 radix2 (-24)); unfold al in *; lra).
    assert (V0 : 0 < 4 * uu / al) by (apply Rdiv_lt_0_compat; lra).
    assert (Q := rd_err (a * E)). rewrite (Rabs_right (a * E)) in Q by nra. assert (G := Rle_abs (rd (a * E) - a * E)).
    assert (C : rd (a * E) <= D * E).
    { assert (S1 : hh <= 256 * uu * E). { apply Rle_trans with (256 * uu * pw (-1030)); [|apply Rmult_le_compat_l; lra]. unfold hh, uu. change 256 with (pw 8). rewrite <- !bpow_plus. apply bpow_le. lia. }
      assert (S0 : 65536 * uu <= al). { eapply Rle_trans; [|exact Hal]. unfold uu. change 65536 with (pw 16). rewrite <- bpow_plus. apply bpow_le. lia. }
      assert (E0 : 0 < E) by (pose proof (bpow_gt_0 radix2 (-1030)); lra).
      assert (S2 : a * E * (1 + uu) <= al * (1 + 4 * uu) * E).
      { assert (a * (1 + uu) <= al * (1 + 4 * uu)) by nra. nra. }
      assert (S3 : (al * (1 + 4 * uu) + 256 * uu) <= D) by nra. nra. }
    apply Rle_ge. replace (- E) with (rd (- E)) by (rewrite rd_opp, FE; reflexivity). apply rd_le.
    apply Rmult_le_reg_r with D; [exact D0|]. unfold Rdiv. rewrite Rmult_assoc, Rinv_l by lra. lra.
  Qed.

  Lemma sign_small : X < E -> E < pw (-1030) -> rd (rd (a * rd (X - E)) / D) >= - E.
  Proof.
    intros HXE HS. destruct (sign_neg HXE) as [P1 P2]. set (p := rd (a * rd (X - E))) in *. destruct a_bounds as [A0 A1].
    pose proof D_bound as B. pose proof D_pos as D0. pose proof core_ineq as CI. pose proof uu_pos as U. destruct uu_1 as [U1 _]. pose proof eta_pos as H0.
    assert (A2 : 0 < al <= 1) by (pose proof (bpow_gt_0 radix2 (-24)); unfold al in *; lra).
    destruct (rd_grid E) as [N EN]. rewrite FE in EN. destruct (rd_grid (a * rd (X - E))) as [k Ek]. fold p in Ek.
    assert (Sm : pw (-1030) <= / 512 * pw (-1021)) by (change (/ 512) with (pw (-9)); rewrite <- bpow_plus; apply Rle_refl).
    assert (T0 : 0 < pw (-1021)) by apply bpow_gt_0.
    assert (AE : a * E <= 2 * E) by (assert (a <= 2) by nra; nra).
    assert (Q : Rabs (rd (a * E) - a * E) <= / 2 * eta) by (apply rd_tiny; rewrite Rabs_right by nra; lra).
    assert (G := Rle_abs (rd (a * E) - a * E)).
    (* k eta <= a N eta + eta / 2 *)
    assert (K1 : - IZR k <= a * IZR N + / 2).
    { apply Rmult_le_reg_r with eta; [exact H0|]. rewrite EN in *. rewrite Ek in P1. lra. }
    destruct (Z.eq_dec k 0) as [K0|K0].
    { rewrite Ek, K0. unfold Rdiv. rewrite !Rmult_0_l, rd_0. lra. }
    assert (K2 : 1 <= - IZR k).
    { assert (IZR k <= 0) by (apply Rmult_le_reg_r with eta; [exact H0|]; lra). apply le_IZR in H. rewrite <- opp_IZR. apply (IZR_le 1). lia. }
    assert (Np : 0 < IZR N) by (apply Rmult_lt_reg_r with eta; [exact H0|]; lra).
    assert (T1 : / 2 <= a * IZR N) by lra.
    set (T := al * IZR N). assert (T2 : / 2 - uu <= T).
    { unfold T. assert (a * IZR N <= al * (1 + 2 * uu) * IZR N) by (apply Rmult_le_compat_r; lra). unfold al in *. nra. }
    assert (K3 : - IZR k < D * (IZR N + / 2)).
    { assert (S1 : a * IZR N <= T + 2 * uu * T) by (unfold T; nra).
      assert (S2 : (al * (1 + be) - 4 * uu) * (IZR N + / 2) <= D * (IZR N + / 2)) by (apply Rmult_le_compat_r; lra).
      assert (S3 : (al * (1 + be) - 4 * uu) * (IZR N + / 2) = T + be * T - (4 * uu / al) * T + al * (1 + be) / 2 - 2 * uu).
      { unfold T. field. lra. }
      assert (CF : be - 4 * uu / al - 2 * uu >= 0) by nra.
      assert (S4 : (be - 4 * uu / al - 2 * uu) * (/ 2 - uu) <= (be - 4 * uu / al - 2 * uu) * T) by (apply Rmult_le_compat_l; lra).
      assert (EB : be = 1 - al) by (unfold al; ring).
      assert (S5 : al * (1 + be) / 2 = / 2 - be / 2 + al * be / 2) by (rewrite EB; field).
      nra. }
    assert (Pn : p / D = - (- IZR k / D * eta)) by (rewrite Ek; field; lra).
    assert (K4 : - IZR k / D < IZR N + / 2).
    { apply Rmult_lt_reg_r with D; [exact D0|]. unfold Rdiv. rewrite Rmult_assoc, Rinv_l by lra. lra. }
    assert (K5 : 0 <= - IZR k / D) by (apply Rlt_le, Rdiv_lt_0_compat; lra).
    assert (N1 : IZR 1 <= IZR N) by (apply IZR_le; apply lt_IZR in Np; lia).
    assert (SZ : - IZR k / D * eta < pw (-1021)).
    { apply Rle_lt_trans with ((IZR N + / 2) * eta); [apply Rmult_le_compat_r; lra|]. assert (/ 2 * eta <= E) by (rewrite EN; apply Rmult_le_compat_r; lra). rewrite Rmult_plus_distr_r, <- EN. lra. }
    assert (Q2 : Rabs (rd (- IZR k / D * eta) - - IZR k / D * eta) <= / 2 * eta) by (apply rd_tiny; rewrite Rabs_right by nra; exact SZ).
    assert (G2 := Rle_abs (rd (- IZR k / D * eta) - - IZR k / D * eta)).
    destruct (rd_grid (- IZR k / D * eta)) as [m Em].
    rewrite Pn, rd_opp, Em. assert (m <= N)%Z.
    { assert (IZR m < IZR (N + 1)).
      { rewrite plus_IZR. apply Rmult_lt_reg_r with eta; [exact H0|]. rewrite <- Em. assert (- IZR k / D * eta < (IZR N + / 2) * eta) by (apply Rmult_lt_compat_r; lra). lra. }
      apply lt_IZR in H. lia. }
    apply IZR_le in H. assert (IZR m * eta <= IZR N * eta) by (apply Rmult_le_compat_r; lra). lra.
  Qed.

  Theorem sign_step : 0 <= rd (E + rd (rd (a * rd (X - E)) / D)).
  Proof.
    apply sign_enough. destruct (Rlt_le_dec X E) as [H|H].
    - destruct (Rlt_le_dec E (pw (-1030))); [apply sign_small|apply sign_large]; assumption.
    - apply Rle_ge. apply Rle_trans with 0; [lra|]. rewrite <- rd_0. apply rd_le. pose proof D_pos. destruct a_bounds as [A0 _].
      assert (0 <= rd (X - E)) by (rewrite <- rd_0; apply rd_le; lra). assert (0 <= rd (a * rd (X - E))) by (rewrite <- rd_0 at 1; apply rd_le; nra).
      unfold Rdiv. apply Rmult_le_pos; [assumption|]. left. apply Rinv_0_lt_compat. assumption.
  Qed.
End Sign.
