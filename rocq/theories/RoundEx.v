(** * A mathematical library that meets the accuracy hypothesis (correct rounding), and a frame of binary64 numbers. *)
From Coq Require Import String ZArith Reals Lra Psatz Lia List Bool Arith.
From Flocq Require Import Core BinarySingleNaN.
From Verif Require Import Num Py Ewma Spec SpecEwma Ieee SpecRound RoundStep RoundDecay.
Import ListNotations.
Local Open Scope R_scope.

(** The binary64 number nearest to a real of moderate size. *)
Definition of_R (r : R) : b64 :=
  binary_normalize 53 1024 _ _ mode_NE (Ztrunc (scaled_mantissa radix2 (SpecFloat.fexp 53 1024) (rd r))) (cexp radix2 (SpecFloat.fexp 53 1024) (rd r)) false.
Lemma of_R_val r : Rabs r <= pw 1020 -> isnum (of_R r) /\ fval (of_R r) = rd r.
Proof.
  intros H. assert (G : generic_format radix2 (SpecFloat.fexp 53 1024) (rd r)) by (apply generic_format_round; [apply fexp_correct; reflexivity|apply valid_rnd_N]).
  generalize (binary_normalize_correct 53 1024 _ _ mode_NE (Ztrunc (scaled_mantissa radix2 (SpecFloat.fexp 53 1024) (rd r))) (cexp radix2 (SpecFloat.fexp 53 1024) (rd r)) false).
  cbv zeta. unfold generic_format in G. rewrite <- G. change (round radix2 (SpecFloat.fexp 53 1024) (round_mode mode_NE) (rd r)) with (rd (rd r)).
  rewrite (round_generic radix2 (SpecFloat.fexp 53 1024) (round_mode mode_NE) (rd r) G : rd (rd r) = rd r). rewrite rd_small by exact H.
  intros (A & B & _). split; [exact B|exact A].
Qed.
Lemma rd_err1 r : 0 <= r <= 1 -> Rabs (rd r - r) <= pw (-53).
Proof.
  intros H. eapply Rle_trans; [apply (error_le_half_ulp radix2 (FLT_exp (-1074) 53))|].
  apply Rle_trans with (/ 2 * ulp radix2 (FLT_exp (-1074) 53) 1).
  - apply Rmult_le_compat_l; [lra|]. apply ulp_le; [apply (FLT_exp_valid (-1074) 53)|apply (FLT_exp_monotone (-1074) 53)|]. rewrite !Rabs_right; lra.
  - change 1 with (pw 0). rewrite ulp_bpow. change (/ 2) with (pw (-1)). rewrite <- bpow_plus. apply Rle_refl.
Qed.
Definition rounded_libm : libm := {| m_exp := fun x => of_R (exp (fval x)); m_ln := fun x => of_R (ln (fval x)); m_pow := fun x k => of_R (fval x ^ k) |}.
Lemma of_R_1 r : 0 <= r <= 1 -> isnum (of_R r) /\ Rabs (fval (of_R r) - r) <= pw (-53).
Proof.
  intros H. destruct (of_R_val r) as [N V].
  - rewrite Rabs_right by lra. apply Rle_trans with (pw 0); [change (pw 1) with 2 || change (pw 0) with 1; lra|apply bpow_le; lia].
  - rewrite V. split; [exact N|apply rd_err1; exact H].
Qed.
Lemma rounded_accurate : accurate rounded_libm.
Proof.
  split; [|split].
  - intros x _ E. cbn. rewrite E. apply of_R_1. pose proof ln2_bounds. lra.
  - intros x _ H. apply of_R_1. split; [left; apply exp_pos|]. rewrite <- exp_0. destruct H as [H| ->]; [left; apply exp_increasing; exact H|lra].
  - intros x _ H k. change (m_pow rounded_libm x k) with (of_R (fval x ^ k)). destruct (of_R_1 (fval x ^ k)) as [N E].
    + split; [apply pow_le; lra|rewrite <- (pow1 k); apply pow_incr; lra].
    + split; [exact N|]. eapply Rle_trans; [exact E|]. apply bpow_le. lia.
Qed.

Definition f2 : b64 := fadd f1 f1.
Lemma f2_val : isnum f2 /\ fval f2 = 2.
Proof.
  destruct (fadd_val f1 f1 f1_num f1_num) as [N V].
  - rewrite f1_val. rewrite Rabs_right by lra. apply Rle_trans with (pw 1); [change (pw 1) with 2 || change (pw 0) with 1; lra|apply bpow_le; lia].
  - split; [exact N|]. change (fval f2) with (fval (fadd f1 f1)). rewrite V, f1_val. replace (1 + 1) with 2 by ring. apply rd_2.
Qed.
Definition rx_f : frame (N := IEEE rounded_libm) time :=
  mkFrame (N := IEEE rounded_libm) [1; 2; 5]%Z ["A"; "B"]%string [[f1; f2]; [Bopp f1; f0]; [f0; Bopp f2]].
Lemma rx_numbers : numbers rx_f 2.
Proof.
  destruct f2_val as [N2 V2]. pose proof f1_num as N1. pose proof f1_val as V1.
  assert (O : forall x : b64, isnum x -> isnum (Bopp x) /\ fval (Bopp x) = - fval x) by (intros x Hx; split; [unfold isnum; rewrite is_finite_Bopp; exact Hx|apply B2R_Bopp]).
  assert (N0 : isnum f0) by reflexivity. assert (V0 : fval f0 = 0) by reflexivity.
  destruct (O f1 N1) as [N1' V1']. destruct (O f2 N2) as [N2' V2'].
  assert (B : forall x r, isnum x -> fval x = r -> -2 <= r <= 2 -> isnum x /\ Rabs (fval x) <= 2) by (intros x r H1 H2 H3; split; [exact H1|rewrite H2; apply Rabs_le; exact H3]).
  intros k j Hk Hj. change (k < 3)%nat in Hk. change (j < 2)%nat in Hj.
  destruct k as [|[|[|k]]]; [| | |lia]; (destruct j as [|[|j]]; [| |lia]).
  - exact (B f1 _ N1 V1 ltac:(lra)).
  - exact (B f2 _ N2 V2 ltac:(lra)).
  - exact (B (Bopp f1) _ N1' V1' ltac:(rewrite V1; lra)).
  - exact (B f0 _ N0 V0 ltac:(lra)).
  - exact (B f0 _ N0 V0 ltac:(lra)).
  - exact (B (Bopp f2) _ N2' V2' ltac:(rewrite V2; lra)).
Qed.
Lemma rx_valid : valid_returns (N := IEEE rounded_libm) rx_f.
Proof.
  split; [split; [reflexivity|]|split].
  - constructor; [reflexivity|]. constructor; [reflexivity|]. constructor; [reflexivity|]. constructor.
  - split; [reflexivity|]. split; [reflexivity|]. exact I.
  - discriminate.
Qed.
Lemma rx_hyps : accurate rounded_libm /\ isnum f2 /\ / 2 <= fval f2 <= pw 20 /\ pw (-440) <= 2 <= pw 490 /\
  valid_returns (N := IEEE rounded_libm) rx_f /\ fvals rx_f <> [] /\ numbers rx_f 2.
Proof.
  destruct f2_val as [N2 V2]. split; [exact rounded_accurate|]. split; [exact N2|]. rewrite V2.
  assert (P1 : 2 <= pw 20) by (apply Rle_trans with (pw 1); [change (pw 1) with 2; lra|apply bpow_le; lia]).
  assert (P2 : 2 <= pw 490) by (apply Rle_trans with (pw 1); [change (pw 1) with 2; lra|apply bpow_le; lia]).
  assert (P3 : pw (-440) <= 2) by (apply Rle_trans with (pw 0); [apply bpow_le; lia|change (pw 0) with 1; lra]).
  split; [split; [lra|exact P1]|]. split; [split; assumption|]. split; [exact rx_valid|]. split; [discriminate|exact rx_numbers].
Qed.
Lemma rx_hyps36 : accurate rounded_libm /\ isnum f2 /\ / 2 <= fval f2 <= pw 36 /\ pw (-900) <= 2 <= pw 1000 /\
  valid_returns (N := IEEE rounded_libm) rx_f /\ fvals rx_f <> [] /\ numbers rx_f 2.
Proof.
  destruct rx_hyps as (H1 & H2 & [H3 H3'] & [H4 H4'] & H5). split; [exact H1|]. split; [exact H2|].
  split; [split; [exact H3|]|]; [eapply Rle_trans; [exact H3'|apply bpow_le; lia]|].
  split; [split; (eapply Rle_trans; [|first [exact H4|exact (bpow_le radix2 490 1000 ltac:(lia))]])|exact H5].
  - apply bpow_le; lia.
  - exact H4'.
Qed.
