(** * Error analysis of one step of the EWMA recursion: the arithmetic over the reals. *)
From Coq Require Import Reals Lra Psatz.
Local Open Scope R_scope.

Lemma abs_mul_le x y A B : Rabs x <= A -> Rabs y <= B -> Rabs (x * y) <= A * B.
Proof. intros. rewrite Rabs_mult. apply Rmult_le_compat; auto using Rabs_pos. Qed.
Lemma abs_via x y A B : Rabs (x - y) <= A -> Rabs y <= B -> Rabs x <= A + B.
Proof. intros H1 H2. replace x with ((x - y) + y) by ring. eapply Rle_trans; [apply Rabs_triang|lra]. Qed.
Lemma abs_plus x y A B : Rabs x <= A -> Rabs y <= B -> Rabs (x + y) <= A + B.
Proof. intros. eapply Rle_trans; [apply Rabs_triang|lra]. Qed.

Section Step.
  Set Default Proof Using "All".
  Context (u h al M D0 X E : R).
  Hypothesis Hu : 0 < u.
  Hypothesis Hal : 8192 * u <= al <= 1.
  Hypothesis HM : 0 < M.
  Hypothesis Hh : 0 < h <= u * u * (al * M).
  Hypothesis Hh1 : h <= u * u * al.
  Hypothesis HD : al <= D0 <= 1.
  Hypothesis HX : Rabs X <= M.
  Hypothesis HE : Rabs E <= 2 * M.

  Lemma u_small : u <= / 8192. Proof. lra. Qed.
  Lemma h_small : h <= u * (al * M).
  Proof. assert (0 < al * M) by nra. assert (u * u * (al * M) <= u * (al * M)); [|lra]. apply Rmult_le_compat_r; [lra|]. pose proof u_small. nra. Qed.
  Lemma h_small1 : h <= u * M.
  Proof. pose proof h_small. assert (al * M <= M) by nra. assert (u * (al * M) <= u * M); [|lra]. apply Rmult_le_compat_l; lra. Qed.

  Lemma W_le : Rabs (X - E) <= 3 * M.
  Proof. unfold Rminus. eapply Rle_trans; [apply abs_plus with (A := M) (B := 2 * M); [exact HX|rewrite Rabs_Ropp; exact HE]|lra]. Qed.

  Lemma stage_a a : Rabs (a - al) <= u * Rabs al + h -> Rabs (a - al) <= 2 * u * al.
  Proof. rewrite (Rabs_right al) by lra. intros H. assert (h <= u * al); [|lra]. eapply Rle_trans; [exact Hh1|]. apply Rmult_le_compat_r; [lra|]. pose proof u_small. nra. Qed.
  Lemma stage_D pv D : Rabs (pv - (1 - D0)) <= 2 * u -> Rabs (D - (1 - pv)) <= u * Rabs (1 - pv) + h -> Rabs (D - D0) <= 4 * u /\ al / 2 <= D.
  Proof.
    intros H1 H2. pose proof u_small as Hs.
    assert (A : Rabs (1 - pv) <= 1 + 2 * u).
    { assert (Rabs ((1 - pv) - D0) <= 2 * u) by (replace ((1 - pv) - D0) with (- (pv - (1 - D0))) by ring; rewrite Rabs_Ropp; exact H1).
      assert (Rabs D0 <= 1) by (rewrite Rabs_right; lra). pose proof (abs_via _ _ _ _ H H0). lra. }
    assert (B : Rabs (D - D0) <= 4 * u).
    { replace (D - D0) with ((D - (1 - pv)) + - (pv - (1 - D0))) by ring.
      assert (Hh2 : h <= u * u) by (eapply Rle_trans; [exact Hh1|]; assert (0 < u * u) by nra; nra).
      assert (u * Rabs (1 - pv) <= u * (1 + 2 * u)) by (apply Rmult_le_compat_l; lra).
      eapply Rle_trans; [apply abs_plus; [exact H2|rewrite Rabs_Ropp; exact H1]|]. nra. }
    split; [exact B|]. assert (B2 := Rle_abs (- (D - D0))); rewrite Rabs_Ropp in B2; lra.
  Qed.
  Lemma stage_d d : Rabs (d - (X - E)) <= u * Rabs (X - E) + h -> Rabs (d - (X - E)) <= 4 * (u * M) /\ Rabs d <= 4 * M.
  Proof.
    intros H. pose proof W_le as HW. pose proof h_small1. pose proof u_small.
    assert (A : Rabs (d - (X - E)) <= 4 * (u * M)).
    { assert (u * Rabs (X - E) <= u * (3 * M)) by (apply Rmult_le_compat_l; lra). lra. }
    split; [exact A|]. pose proof (abs_via _ _ _ _ A HW). nra.
  Qed.
  Lemma stage_ad a d : Rabs (a - al) <= 2 * u * al -> Rabs (d - (X - E)) <= 4 * (u * M) -> Rabs d <= 4 * M ->
    Rabs (a * d - al * (X - E)) <= 12 * (u * (al * M)) /\ Rabs (a * d) <= 4 * (al * M).
  Proof.
    intros Ha Hd1 Hd2. pose proof u_small.
    assert (A : Rabs (a * d - al * (X - E)) <= 12 * (u * (al * M))).
    { replace (a * d - al * (X - E)) with ((a - al) * d + al * (d - (X - E))) by ring.
      assert (T2 : Rabs (al * (d - (X - E))) <= al * (4 * (u * M))) by (apply abs_mul_le; [rewrite Rabs_right; lra|exact Hd1]).
      eapply Rle_trans; [apply (abs_plus _ _ _ _ (abs_mul_le _ _ _ _ Ha Hd2) T2)|]. lra. }
    split; [exact A|].
    assert (B : Rabs (al * (X - E)) <= al * (3 * M)) by (apply abs_mul_le; [rewrite Rabs_right; lra|exact W_le]).
    pose proof (abs_via _ _ _ _ A B). assert (0 < al * M) by nra. nra.
  Qed.
  Lemma stage_p ad p : Rabs (ad - al * (X - E)) <= 12 * (u * (al * M)) -> Rabs ad <= 4 * (al * M) -> Rabs (p - ad) <= u * Rabs ad + h ->
    Rabs (p - al * (X - E)) <= 17 * (u * (al * M)) /\ Rabs p <= 4 * (al * M).
  Proof.
    intros H1 H2 H3. pose proof h_small. pose proof u_small.
    assert (A : Rabs (p - al * (X - E)) <= 17 * (u * (al * M))).
    { replace (p - al * (X - E)) with ((p - ad) + (ad - al * (X - E))) by ring.
      assert (u * Rabs ad <= u * (4 * (al * M))) by (apply Rmult_le_compat_l; lra).
      eapply Rle_trans; [apply abs_plus; [exact H3|exact H1]|]. lra. }
    split; [exact A|].
    assert (B : Rabs (al * (X - E)) <= al * (3 * M)) by (apply abs_mul_le; [rewrite Rabs_right; lra|exact W_le]).
    pose proof (abs_via _ _ _ _ A B). assert (0 < al * M) by nra. nra.
  Qed.
  Let ga := al / D0.
  Let ka := u * M / al.
  Lemma ga_le : al <= ga <= 1.
  Proof.
    unfold ga. assert (0 < D0) by lra. split.
    - apply Rmult_le_reg_r with D0; [lra|]. unfold Rdiv. rewrite Rmult_assoc, Rinv_l by lra. nra.
    - apply Rmult_le_reg_r with D0; [lra|]. unfold Rdiv. rewrite Rmult_assoc, Rinv_l by lra. lra.
  Qed.
  Lemma ka_bounds : 0 < ka /\ u * M <= ka /\ 8192 * ka <= M.
  Proof.
    unfold ka. assert (0 < u * M) by nra. assert (Hi : 1 <= / al) by (rewrite <- Rinv_1; apply Rinv_le_contravar; lra).
    assert (al * / al = 1) by (apply Rinv_r; lra). unfold Rdiv. repeat split; [nra|nra|].
    apply Rmult_le_reg_l with al; [lra|]. replace (al * (8192 * (u * M * / al))) with ((al * / al) * (8192 * (u * M))) by ring. rewrite H0. nra.
  Qed.
  Lemma stage_Q p D : Rabs (p - al * (X - E)) <= 17 * (u * (al * M)) -> Rabs p <= 4 * (al * M) -> Rabs (D - D0) <= 4 * u -> al / 2 <= D ->
    Rabs (p / D - ga * (X - E)) <= 49 * (ga * ka) /\ Rabs (p / D) <= 4 * (ga * M).
  Proof.
    intros H1 H2 H3 H4. destruct ga_le as [G1 G2]. destruct ka_bounds as (K0 & K1 & K2). assert (0 < D0) by lra. assert (0 < D) by lra.
    assert (ID0 : 0 < / D0) by (apply Rinv_0_lt_compat; lra). assert (ID : 0 < / D) by (apply Rinv_0_lt_compat; lra).
    assert (IDa : / D <= 2 * / al).
    { apply Rle_trans with (/ (al / 2)); [apply Rinv_le_contravar; lra|]. apply Req_le. field. lra. }
    assert (A : Rabs (p / D - ga * (X - E)) <= 49 * (ga * ka)).
    { replace (p / D - ga * (X - E)) with ((p - al * (X - E)) * / D0 + (p * (- (D - D0))) * (/ D * / D0)) by (unfold ga; field; lra).
      assert (T1 : Rabs ((p - al * (X - E)) * / D0) <= 17 * (u * (al * M)) * / D0) by (apply abs_mul_le; [exact H1|rewrite Rabs_right; lra]).
      assert (T2 : Rabs ((p * (- (D - D0))) * (/ D * / D0)) <= (4 * (al * M) * (4 * u)) * ((2 * / al) * / D0)).
      { apply abs_mul_le; [apply abs_mul_le; [exact H2|rewrite Rabs_Ropp; exact H3]|]. rewrite Rabs_right; [|nra]. apply Rmult_le_compat_r; lra. }
      eapply Rle_trans; [apply (abs_plus _ _ _ _ T1 T2)|].
      replace (17 * (u * (al * M)) * / D0) with (17 * (ga * (u * M))) by (unfold ga; field; lra).
      replace (4 * (al * M) * (4 * u) * (2 * / al * / D0)) with (32 * (ga * ka)) by (unfold ga, ka; field; lra).
      assert (ga * (u * M) <= ga * ka) by (apply Rmult_le_compat_l; lra). lra. }
    split; [exact A|].
    assert (B : Rabs (ga * (X - E)) <= ga * (3 * M)) by (apply abs_mul_le; [rewrite Rabs_right; lra|exact W_le]).
    pose proof (abs_via _ _ _ _ A B). nra.
  Qed.
  Lemma stage_g Q g : Rabs (Q - ga * (X - E)) <= 49 * (ga * ka) -> Rabs Q <= 4 * (ga * M) -> Rabs (g - Q) <= u * Rabs Q + h ->
    Rabs (g - ga * (X - E)) <= 54 * (ga * ka) /\ Rabs (E + g) <= 3 * M.
  Proof.
    intros H1 H2 H3. destruct ga_le as [G1 G2]. destruct ka_bounds as (K0 & K1 & K2). pose proof h_small as Hs.
    assert (Hs2 : h <= u * (ga * M)) by (eapply Rle_trans; [exact Hs|]; apply Rmult_le_compat_l; [lra|]; apply Rmult_le_compat_r; lra).
    assert (A : Rabs (g - ga * (X - E)) <= 54 * (ga * ka)).
    { replace (g - ga * (X - E)) with ((g - Q) + (Q - ga * (X - E))) by ring.
      assert (u * Rabs Q <= u * (4 * (ga * M))) by (apply Rmult_le_compat_l; lra).
      eapply Rle_trans; [apply abs_plus; [exact H3|exact H1]|].
      assert (ga * (u * M) <= ga * ka) by (apply Rmult_le_compat_l; lra). lra. }
    split; [exact A|].
    assert (B : Rabs (E + ga * (X - E)) <= 2 * M).
    { replace (E + ga * (X - E)) with ((1 - ga) * E + ga * X) by ring.
      assert (T1 : Rabs ((1 - ga) * E) <= (1 - ga) * (2 * M)) by (apply abs_mul_le; [rewrite Rabs_right; lra|exact HE]).
      assert (T2 : Rabs (ga * X) <= ga * M) by (apply abs_mul_le; [rewrite Rabs_right; lra|exact HX]).
      eapply Rle_trans; [apply (abs_plus _ _ _ _ T1 T2)|]. nra. }
    replace (E + g) with ((g - ga * (X - E)) + (E + ga * (X - E))) by ring.
    eapply Rle_trans; [apply (abs_plus _ _ _ _ A B)|]. nra.
  Qed.
  Lemma stage_e g E1 : Rabs (g - ga * (X - E)) <= 54 * (ga * ka) -> Rabs (E + g) <= 3 * M -> Rabs (E1 - (E + g)) <= u * Rabs (E + g) + h ->
    Rabs (E1 - (E + ga * (X - E))) <= 54 * (ga * ka) + 4 * (u * M).
  Proof.
    intros H1 H2 H3. pose proof h_small1.
    replace (E1 - (E + ga * (X - E))) with ((g - ga * (X - E)) + (E1 - (E + g))) by ring.
    assert (u * Rabs (E + g) <= u * (3 * M)) by (apply Rmult_le_compat_l; lra).
    eapply Rle_trans; [apply abs_plus; [exact H1|exact H3]|]. lra.
  Qed.
  (** The error does not accumulate. *)
  Lemma stage_total T E1 : Rabs T <= M -> Rabs (E - T) <= 58 * ka -> Rabs (E1 - (E + ga * (X - E))) <= 54 * (ga * ka) + 4 * (u * M) ->
    Rabs (E1 - (T + ga * (X - T))) <= 58 * ka /\ Rabs (T + ga * (X - T)) <= M /\ Rabs E1 <= 2 * M.
  Proof.
    intros HT H1 H2. destruct ga_le as [G1 G2]. destruct ka_bounds as (K0 & K1 & K2).
    assert (A : Rabs (E1 - (T + ga * (X - T))) <= 58 * ka).
    { replace (E1 - (T + ga * (X - T))) with ((E1 - (E + ga * (X - E))) + (1 - ga) * (E - T)) by ring.
      assert (T1 : Rabs ((1 - ga) * (E - T)) <= (1 - ga) * (58 * ka)) by (apply abs_mul_le; [rewrite Rabs_right; lra|exact H1]).
      eapply Rle_trans; [apply (abs_plus _ _ _ _ H2 T1)|].
      assert (u * M = al * ka) by (unfold ka; field; lra). assert (al * ka <= ga * ka) by (apply Rmult_le_compat_r; lra). nra. }
    assert (B : Rabs (T + ga * (X - T)) <= M).
    { replace (T + ga * (X - T)) with ((1 - ga) * T + ga * X) by ring.
      assert (T1 : Rabs ((1 - ga) * T) <= (1 - ga) * M) by (apply abs_mul_le; [rewrite Rabs_right; lra|exact HT]).
      assert (T2 : Rabs (ga * X) <= ga * M) by (apply abs_mul_le; [rewrite Rabs_right; lra|exact HX]).
      eapply Rle_trans; [apply (abs_plus _ _ _ _ T1 T2)|]. nra. }
    split; [exact A|]. split; [exact B|]. pose proof (abs_via _ _ _ _ A B). lra.
  Qed.
End Step.
