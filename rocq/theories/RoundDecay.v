(** * The decay factor the code computes from a half-life. *)
From Coq Require Import ZArith Reals Lra Psatz Lia.
From Flocq Require Import Core BinarySingleNaN.
From Verif Require Import Num Py Ewma Spec Ieee SpecRound RoundStep RoundReal.
Local Open Scope R_scope.
Notation pw e := (bpow radix2 e).

Lemma ln2_bounds : / 2 < ln 2 < 1.
Proof.
  split; [apply ln_lt_2|]. apply exp_lt_inv. rewrite exp_ln by lra. pose proof (exp_ineq1 1 ltac:(lra)). lra.
Qed.
Lemma exp_lip a b : a <= 0 -> b <= 0 -> Rabs (exp a - exp b) <= Rabs (a - b).
Proof.
  assert (G : forall a b, a <= b -> b <= 0 -> Rabs (exp a - exp b) <= Rabs (a - b)).
  { intros x y H Hy. rewrite <- Rabs_Ropp, <- (Rabs_Ropp (x - y)). replace (- (exp x - exp y)) with (exp y * (1 - exp (x - y))).
    - assert (E1 : exp y <= 1) by (rewrite <- exp_0; destruct (Req_dec y 0) as [->|]; [lra|apply Rlt_le, exp_increasing; lra]).
      assert (E2 : 1 + (x - y) <= exp (x - y)) by (apply exp_ineq1_le).
      assert (E3 : exp (x - y) <= 1) by (rewrite <- exp_0; destruct (Req_dec x y) as [->|]; [rewrite Rminus_diag_eq by reflexivity; lra|apply Rlt_le, exp_increasing; lra]).
      pose proof (exp_pos y). rewrite !Rabs_right by nra. nra.
    - replace x with (y + (x - y)) at 2 by ring. rewrite exp_plus. ring. }
  intros Ha Hb. destruct (Rle_dec a b); [apply G; auto|]. rewrite <- Rabs_Ropp, <- (Rabs_Ropp (a - b)).
  replace (- (exp a - exp b)) with (exp b - exp a) by ring. replace (- (a - b)) with (b - a) by ring. apply G; lra.
Qed.
Lemma uu_tiny : uu <= / 1024 /\ hh <= uu * uu.
Proof.
  unfold uu, hh. split.
  - change (/ 1024) with (pw (-10)). apply bpow_le. lia.
  - rewrite <- bpow_plus. apply bpow_le. lia.
Qed.
Lemma rd_2 : rd 2 = 2.
Proof. apply round_generic; [apply valid_rnd_N|]. change 2 with (pw 1). apply generic_format_bpow. cbv. discriminate. Qed.

Section Decay.
  Context (L : libm) (h : b64).
  Hypothesis HL : accurate L.
  Hypothesis Hn : isnum h.
  Let H := fval h.
  Hypothesis HH : / 2 <= H <= pw 36.

  Let alpha := fsub f1 (m_exp L (fdiv (Bopp (m_ln L (fadd f1 f1))) h)).
  Lemma beta_eq : beta_of (N := IEEE L) (Some h) None = Ok (fsub f1 alpha).
  Proof.
    unfold beta_of, alpha_of, truthy. change (@nis0 (IEEE L) h) with (Beqb h f0).
    generalize (Beqb_correct 53 1024 h f0 Hn eq_refl). intros ->. rewrite Req_bool_false; [reflexivity|]. change (B2R f0) with 0. fold (fval h). fold H. lra.
  Qed.
  Lemma decay_bounds2 : / 4 <= decay H /\ 2 * pw (-40) <= 1 - decay H /\ decay H < 1.
  Proof.
    pose proof ln2_bounds as LB. unfold decay, Rpower.
    assert (P : 0 < pw 36) by apply bpow_gt_0.
    assert (Hi : 0 < / H <= 2). { split; [apply Rinv_0_lt_compat; lra|]. replace 2 with (/ (/ 2)) by lra. apply Rinv_le_contravar; lra. }
    assert (Hi2 : pw (-36) <= / H). { change (-36)%Z with (- (36))%Z. rewrite bpow_opp. apply Rinv_le_contravar; lra. }
    assert (P2 : 0 < pw (-36)) by apply bpow_gt_0.
    set (t := / H * ln 2). replace (- / H * ln 2) with (- t) by (unfold t; ring).
    assert (T1 : pw (-37) <= t).
    { unfold t. replace (pw (-37)) with (pw (-36) * / 2); [|rewrite (bpow_plus radix2 (-36) (-1)) || idtac].
      - apply Rmult_le_compat; lra.
      - change (/ 2) with (pw (-1)). rewrite <- bpow_plus. reflexivity. }
    assert (T2 : t <= 2 * ln 2) by (unfold t; apply Rmult_le_compat_r; lra).
    assert (E : exp (- t) * exp t = 1) by (rewrite <- exp_plus, Rplus_opp_l; apply exp_0).
    assert (X := exp_pos (- t)). assert (X1 := exp_pos t). assert (P3 : 0 < pw (-37)) by apply bpow_gt_0.
    assert (E1 : 1 + t < exp t) by (apply exp_ineq1; lra).
    assert (E2 : exp t <= 4).
    { replace 4 with (exp (2 * ln 2)). - destruct T2 as [T2|T2]; [apply Rlt_le, exp_increasing; exact T2|rewrite T2; lra].
      - replace (2 * ln 2) with (ln 2 + ln 2) by ring. rewrite exp_plus, exp_ln by lra. lra. }
    assert (P4 : 2 * pw (-40) = pw (-37) * / 4).
    { change 2 with (pw 1). change (/ 4) with (pw (-2)). rewrite <- !bpow_plus. reflexivity. }
    repeat split; [nra| |nra]. rewrite P4. assert (pw (-37) * / 4 <= t * / 4) by lra. nra.
  Qed.
  Theorem beta_close : isnum (fsub f1 alpha) /\ Rabs (fval (fsub f1 alpha) - decay H) <= 8 * uu.
  Proof.
    pose proof ln2_bounds as LB. destruct uu_tiny as [U1 U2]. pose proof uu_pos as U0. pose proof hh_pos as H0.
    destruct HL as (HL1 & HL2 & _). fold uu in HL1, HL2.
    assert (B2 : forall x, Rabs x <= 4 -> Rabs x <= pw 1020).
    { intros x Hx. eapply Rle_trans; [exact Hx|]. change 4 with (pw 2). apply bpow_le. lia. }
    destruct (fadd_val f1 f1 f1_num f1_num) as [N2 V2].
    { rewrite f1_val. apply B2. rewrite Rabs_right; lra. }
    rewrite f1_val in V2. replace (1 + 1) with 2 in V2 by ring. rewrite rd_2 in V2.
    destruct (HL1 _ N2 V2) as [Nl El]. set (l := m_ln L (fadd f1 f1)) in *.
    assert (No : isnum (Bopp l)) by (unfold isnum; rewrite is_finite_Bopp; exact Nl).
    assert (Vo : fval (Bopp l) = - fval l) by apply B2R_Bopp.
    assert (El2 : ln 2 - uu <= fval l <= ln 2 + uu) by (assert (G := Rle_abs (fval l - ln 2)); assert (G2 := Rle_abs (- (fval l - ln 2))); rewrite Rabs_Ropp in G2; lra).
    assert (Hi : 0 < / H <= 2). { split; [apply Rinv_0_lt_compat; lra|]. replace 2 with (/ (/ 2)) by lra. apply Rinv_le_contravar; lra. }
    assert (Q1 : Rabs (- fval l / H) <= 2 * (1 + uu)).
    { unfold Rdiv. rewrite Rmult_comm. apply abs_mul_le; [rewrite Rabs_right; lra|]. rewrite Rabs_Ropp, Rabs_right; lra. }
    destruct (fdiv_val (Bopp l) h No) as [Ny Vy].
    { fold H. lra. }
    { rewrite Vo. fold H. apply B2. lra. }
    rewrite Vo in Vy. fold H in Vy. set (y := fdiv (Bopp l) h) in *. set (q := - fval l / H) in *.
    assert (Ey := rd_err q). rewrite <- Vy in Ey.
    assert (Eq : Rabs (q - - / H * ln 2) <= 2 * uu).
    { unfold q. replace (- fval l / H - - / H * ln 2) with (/ H * (- (fval l - ln 2))) by (unfold Rdiv; ring). apply abs_mul_le; [rewrite Rabs_right; lra|rewrite Rabs_Ropp; exact El]. }
    assert (q0 : q <= 0) by (unfold q, Rdiv; nra).
    assert (y0 : fval y <= 0) by (rewrite Vy, <- rd_0; apply rd_le; exact q0).
    destruct (HL2 _ Ny y0) as [Ne Ee]. set (e := m_exp L y) in *.
    assert (d0 : - / H * ln 2 <= 0) by nra.
    assert (E1 : Rabs (fval y - - / H * ln 2) <= 4 * uu + 2 * (uu * uu) + hh).
    { replace (fval y - - / H * ln 2) with ((fval y - q) + (q - - / H * ln 2)) by ring. assert (uu * Rabs q <= uu * (2 * (1 + uu))) by (apply Rmult_le_compat_l; lra).
      eapply Rle_trans; [apply (abs_plus _ _ _ _ Ey Eq)|]. lra. }
    assert (E2 : Rabs (fval e - decay H) <= 5 * uu + 2 * (uu * uu) + hh).
    { unfold decay, Rpower. replace (fval e - exp (- / H * ln 2)) with ((fval e - exp (fval y)) + (exp (fval y) - exp (- / H * ln 2))) by ring.
      eapply Rle_trans; [apply (abs_plus _ _ _ _ Ee (Rle_trans _ _ _ (exp_lip _ _ y0 d0) E1))|]. lra. }
    assert (Xy : 0 < exp (fval y) <= 1). { split; [apply exp_pos|]. rewrite <- exp_0. destruct y0 as [y0| ->]; [apply Rlt_le, exp_increasing; exact y0|lra]. }
    assert (Ee2 : - uu <= fval e <= 1 + uu) by (assert (G := Rle_abs (fval e - exp (fval y))); assert (G2 := Rle_abs (- (fval e - exp (fval y)))); rewrite Rabs_Ropp in G2; lra).
    assert (A1 : Rabs (1 - fval e) <= 1 + uu) by (apply Rabs_le; lra).
    destruct (fsub_val f1 e f1_num Ne) as [Na Va]; [rewrite f1_val; apply B2; lra|]. rewrite f1_val in Va.
    fold e in alpha. change (fsub f1 e) with alpha in Na, Va.
    assert (Ea := rd_err (1 - fval e)). rewrite <- Va in Ea.
    assert (Ea2 : Rabs (fval alpha - (1 - fval e)) <= uu * (1 + uu) + hh) by (assert (uu * Rabs (1 - fval e) <= uu * (1 + uu)) by (apply Rmult_le_compat_l; lra); lra).
    assert (A2 : Rabs (1 - fval alpha) <= 1 + 3 * uu).
    { replace (1 - fval alpha) with (- (fval alpha - (1 - fval e)) + fval e) by ring.
      assert (T1 : Rabs (- (fval alpha - (1 - fval e))) <= uu * (1 + uu) + hh) by (rewrite Rabs_Ropp; exact Ea2).
      assert (T2 : Rabs (fval e) <= 1 + uu) by (apply Rabs_le; lra). eapply Rle_trans; [apply (abs_plus _ _ _ _ T1 T2)|]. nra. }
    destruct (fsub_val f1 alpha f1_num Na) as [Nb Vb]; [rewrite f1_val; apply B2; lra|]. rewrite f1_val in Vb.
    split; [exact Nb|].
    assert (Eb := rd_err (1 - fval alpha)). rewrite <- Vb in Eb.
    assert (Eb2 : Rabs (fval (fsub f1 alpha) - (1 - fval alpha)) <= uu * (1 + 3 * uu) + hh) by (assert (uu * Rabs (1 - fval alpha) <= uu * (1 + 3 * uu)) by (apply Rmult_le_compat_l; lra); lra).
    replace (fval (fsub f1 alpha) - decay H) with ((fval (fsub f1 alpha) - (1 - fval alpha)) + (- (fval alpha - (1 - fval e)) + (fval e - decay H))) by ring.
    assert (T1 : Rabs (- (fval alpha - (1 - fval e))) <= uu * (1 + uu) + hh) by (rewrite Rabs_Ropp; exact Ea2).
    eapply Rle_trans; [apply (abs_plus _ _ _ _ Eb2 (abs_plus _ _ _ _ T1 E2))|]. nra.
  Qed.
End Decay.
