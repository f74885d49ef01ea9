(** * The EWMA recursion in binary64. *)
From Coq Require Import ZArith Reals Lra Psatz Lia List.
From Flocq Require Import Core BinarySingleNaN.
From Verif Require Import Num Py Ewma EwmaTab Spec EwmaReal Ieee SpecRound RoundStep RoundReal.
Import ListNotations.
Local Open Scope R_scope.
Notation pw e := (bpow radix2 e).

Lemma pw_split a b c : (c = a + b)%Z -> pw c = pw a * pw b.
Proof. intros ->. apply bpow_plus. Qed.

Section Run.
  Context (L : libm) (b : b64) (M : R).
  Let be := fval b.
  Let al := 1 - be.
  Hypothesis Hb : isnum b.
  Hypothesis Hb01 : 0 < be.
  Hypothesis Hal0 : pw (-40) <= al.
  Hypothesis Hp : pow_accurate L b.
  Hypothesis HM : pw (-900) <= M <= pw 1000.

  Lemma al_u : 8192 * uu <= al <= 1.
  Proof.
    split; [|unfold al; lra]. eapply Rle_trans; [|exact Hal0]. unfold uu. change 8192 with (pw 13). rewrite <- bpow_plus. apply bpow_le. lia.
  Qed.
  Lemma M_pos : 0 < M. Proof. pose proof (bpow_gt_0 radix2 (-900)). lra. Qed.
  Lemma h_M : 0 < hh <= uu * uu * (al * M).
  Proof.
    split; [apply hh_pos|]. unfold hh, uu. apply Rle_trans with (pw (-53) * pw (-53) * (pw (-40) * pw (-900))).
    - rewrite <- !bpow_plus. apply bpow_le. lia.
    - pose proof (bpow_gt_0 radix2 (-53)). pose proof (bpow_gt_0 radix2 (-40)). pose proof (bpow_gt_0 radix2 (-900)).
      apply Rmult_le_compat_l; [nra|]. apply Rmult_le_compat; lra.
  Qed.
  Lemma h_1 : hh <= uu * uu * al.
  Proof.
    unfold hh, uu. apply Rle_trans with (pw (-53) * pw (-53) * pw (-40)).
    - rewrite <- !bpow_plus. apply bpow_le. lia.
    - apply Rmult_le_compat_l; [|exact Hal0]. pose proof (bpow_gt_0 radix2 (-53)). nra.
  Qed.
  Lemma big x : Rabs x <= 8 * M -> Rabs x <= pw 1020.
  Proof.
    intros H. eapply Rle_trans; [exact H|]. apply Rle_trans with (pw 3 * pw 1000); [|rewrite <- bpow_plus; apply bpow_le; lia].
    apply Rmult_le_compat; [lra| pose proof M_pos; lra | apply Req_le; reflexivity | lra].
  Qed.
  Lemma big1 x : Rabs x <= 2 -> Rabs x <= pw 1020.
  Proof. intros H. eapply Rle_trans; [exact H|]. apply Rle_trans with (pw 1); [apply Req_le; reflexivity|apply bpow_le; lia]. Qed.
  Lemma pow_le_b m : be ^ S m <= be.
  Proof.
    assert (Hb1 : be <= 1) by (pose proof al_u; unfold al in *; pose proof uu_pos; lra).
    assert (0 < be ^ m <= 1). { split; [apply pow_lt; exact Hb01|]. rewrite <- (pow1 m). apply pow_incr. lra. }
    simpl. nra.
  Qed.
  Lemma D0_bounds m : al <= 1 - be ^ S m <= 1.
  Proof. pose proof (pow_le_b m). pose proof (pow_lt be (S m) Hb01). unfold al. lra. Qed.

  Notation upd := (upd (N := IEEE L)).
  Notation nst := (nst (N := IEEE L)).
  Definition gain (n : nat) : R := al / (1 - be ^ S n).
  Definition kappa : R := uu * M / al.

  Lemma fstep_full mp n e x : isnum e -> isnum x -> Rabs (fval x) <= M -> Rabs (fval e) <= 2 * M ->
    isnum (upd b mp None n e x) /\
    fval (upd b mp None n e x) = rd (fval e + rd (rd (rd al * rd (fval x - fval e)) / rd (1 - fval (m_pow L b (S n))))) /\
    Rabs (fval (upd b mp None n e x) - (fval e + gain n * (fval x - fval e))) <= 54 * (gain n * kappa) + 4 * (uu * M).
  Proof.
    intros He Hx Mx Me. pose proof uu_pos as U0. pose proof al_u as AU. pose proof M_pos as M0. pose proof h_M as HM1. pose proof h_1 as H1.
    pose proof (D0_bounds n) as HD. pose proof (u_small uu hh al M (1 - be ^ S n) (fval x) (fval e) U0 AU M0 HM1 H1 HD Mx Me) as US. destruct (Hp (S n)) as [Np Ap].
    replace (pw (-52)) with (2 * uu) in Ap by (unfold uu; rewrite (pw_split 1 (-53) (-52)) by lia; reflexivity). fold be in Ap.
    change (upd b mp None n e x) with (fadd e (fdiv (fmul (fsub f1 b) (fsub x e)) (fsub f1 (m_pow L b (n + 1))))).
    replace (n + 1)%nat with (S n) by lia. set (pv := m_pow L b (S n)) in *.
    assert (Be : be <= 1) by (unfold al in AU; lra).
    destruct (fsub_val f1 b f1_num Hb) as [Na Va].
    { rewrite f1_val. apply big1. fold be. rewrite Rabs_right; lra. }
    rewrite f1_val in Va. fold be al in Va. change (1 - be) with al in Va.
    assert (Ea := rd_err al). rewrite <- Va in Ea. apply (stage_a uu hh al M (1 - be ^ S n) (fval x) (fval e) U0 AU M0 HM1 H1 HD Mx Me) in Ea.
    destruct (fsub_val x e Hx He) as [Nd Vd].
    { apply big. pose proof (W_le uu hh al M (1 - be ^ S n) (fval x) (fval e) U0 AU M0 HM1 H1 HD Mx Me). lra. }
    assert (Ed := rd_err (fval x - fval e)). rewrite <- Vd in Ed. apply (stage_d uu hh al M (1 - be ^ S n) (fval x) (fval e) U0 AU M0 HM1 H1 HD Mx Me) in Ed. destruct Ed as [Ed Ld].
    destruct (stage_ad uu hh al M (1 - be ^ S n) (fval x) (fval e) U0 AU M0 HM1 H1 HD Mx Me _ _ Ea Ed Ld) as [Ead Lad].
    destruct (fmul_val (fsub f1 b) (fsub x e) Na Nd) as [Npp Vp].
    { apply big. eapply Rle_trans; [exact Lad|]. nra. }
    assert (Ep := rd_err (fval (fsub f1 b) * fval (fsub x e))). rewrite <- Vp in Ep.
    destruct (stage_p uu hh al M (1 - be ^ S n) (fval x) (fval e) U0 AU M0 HM1 H1 HD Mx Me _ _ Ead Lad Ep) as [Ep2 Lp].
    assert (Ap' : Rabs (fval pv - (1 - (1 - be ^ S n))) <= 2 * uu) by (replace (1 - (1 - be ^ S n)) with (be ^ S n) by ring; exact Ap).
    destruct (fsub_val f1 pv f1_num Np) as [ND VD].
    { rewrite f1_val. apply big1. replace (1 - fval pv) with (- (fval pv - be ^ S n) + (1 - be ^ S n)) by ring.
      eapply Rle_trans; [apply Rabs_triang|]. rewrite Rabs_Ropp, (Rabs_right (1 - be ^ S n)) by lra. lra. }
    rewrite f1_val in VD. assert (ED := rd_err (1 - fval pv)). rewrite <- VD in ED.
    destruct (stage_D uu hh al M (1 - be ^ S n) (fval x) (fval e) U0 AU M0 HM1 H1 HD Mx Me (fval pv) _ Ap' ED) as [ED2 LD].
    set (p := fmul (fsub f1 b) (fsub x e)) in *. set (D := fsub f1 pv) in *.
    destruct (stage_Q uu hh al M (1 - be ^ S n) (fval x) (fval e) U0 AU M0 HM1 H1 HD Mx Me _ _ Ep2 Lp ED2 LD) as [EQ LQ].
    pose proof (ga_le uu hh al M (1 - be ^ S n) (fval x) (fval e) U0 AU M0 HM1 H1 HD Mx Me) as GA. fold (gain n) in *. fold kappa in *.
    destruct (fdiv_val p D Npp) as [Ng Vg].
    { lra. }
    { apply big. eapply Rle_trans; [exact LQ|]. fold (gain n) in GA. nra. }
    assert (Eg := rd_err (fval p / fval D)). rewrite <- Vg in Eg.
    destruct (stage_g uu hh al M (1 - be ^ S n) (fval x) (fval e) U0 AU M0 HM1 H1 HD Mx Me _ _ EQ LQ Eg) as [Eg2 Lg].
    destruct (fadd_val e (fdiv p D) He Ng) as [N1 V1].
    { apply big. lra. }
    assert (E1 := rd_err (fval e + fval (fdiv p D))). rewrite <- V1 in E1.
    split; [exact N1|]. split; [rewrite V1, Vg, Vp, VD, Va, Vd; reflexivity|].
    exact (stage_e uu hh al M (1 - be ^ S n) (fval x) (fval e) U0 AU M0 HM1 H1 HD Mx Me _ _ Eg2 Lg E1).
  Qed.
  Lemma fstep mp n e x : isnum e -> isnum x -> Rabs (fval x) <= M -> Rabs (fval e) <= 2 * M ->
    isnum (upd b mp None n e x) /\
    Rabs (fval (upd b mp None n e x) - (fval e + gain n * (fval x - fval e))) <= 54 * (gain n * kappa) + 4 * (uu * M).
  Proof. intros He Hx Mx Me. destruct (fstep_full mp n e x He Hx Mx Me) as (A & _ & B). split; assumption. Qed.

  Lemma be_01 : 0 < be < 1. Proof. split; [exact Hb01|]. pose proof al_u. pose proof uu_pos. unfold al in *. lra. Qed.
  Lemma gain_wnew n : gain n = wnew be n.
  Proof. unfold gain, wnew, al. replace (n + 1)%nat with (S n) by lia. reflexivity. Qed.

  (** Whatever the length of the history, the computed average is a number within 58 u M / (1 - b) of the exact one. *)
  Lemma frun mp (x : nat -> b64) k : (forall s, (s <= k)%nat -> isnum (x s) /\ Rabs (fval (x s)) <= M) ->
    isnum (nst b mp None x k) /\ Rabs (fval (nst b mp None x k) - ewavg be (fun s => fval (x s)) k) <= 58 * kappa /\
    Rabs (ewavg be (fun s => fval (x s)) k) <= M /\ Rabs (fval (nst b mp None x k)) <= 2 * M.
  Proof.
    pose proof uu_pos as U0. pose proof al_u as AU. pose proof M_pos as M0. pose proof h_M as HM1. pose proof h_1 as H1.
    assert (K0 : 0 < kappa) by (unfold kappa; apply Rdiv_lt_0_compat; [nra|lra]).
    induction k as [|k IH]; intros H.
    - destruct (H 0%nat (le_n 0)) as [Nx Mx]. change (nst b mp None x 0) with (x 0%nat). rewrite (ewavg_0 be). split; [exact Nx|].
      rewrite Rminus_diag_eq, Rabs_R0 by reflexivity. repeat split; lra.
    - destruct IH as (N & Er & Mw & Me); [intros; apply H; lia|]. destruct (H (S k) (le_n _)) as [Nx Mx].
      change (nst b mp None x (S k)) with (upd b mp None (S k) (nst b mp None x k) (x (S k))).
      destruct (fstep mp (S k) _ _ N Nx Mx Me) as [N1 E1].
      assert (ES : ewavg be (fun s => fval (x s)) (S k) = ewavg be (fun s => fval (x s)) k + gain (S k) * (fval (x (S k)) - ewavg be (fun s => fval (x s)) k)).
      { rewrite (ewavg_S be be_01). rewrite gain_wnew. ring. }
      rewrite ES. split; [exact N1|].
      exact (stage_total uu hh al M (1 - be ^ S (S k)) (fval (x (S k))) (fval (nst b mp None x k)) U0 AU M0 HM1 H1 (D0_bounds (S k)) Mx Me _ _ Mw Er E1).
  Qed.
End Run.
