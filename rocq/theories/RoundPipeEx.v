(** * A run that meets the hypotheses of the end-to-end bound. *)
From Coq Require Import String ZArith Reals Lra Psatz Lia List Bool Arith.
From Flocq Require Import Core BinarySingleNaN.
From Verif Require Import Num Py Ewma Spec SpecEwma EwmaReal EwmaClosed EwmaProps3 Ieee SpecRound SpecRound2 RoundStep RoundDecay RoundEx.
Import ListNotations.
Local Open Scope R_scope.

Definition rp_f : frame (N := IEEE rounded_libm) time :=
  mkFrame (N := IEEE rounded_libm) [1; 2; 5]%Z ["A"; "B"]%string [[f1; f2]; [Bopp f1; f2]; [f1; Bopp f2]].
Definition rp_P : params (N := IEEE rounded_libm) := mkParams (N := IEEE rounded_libm) (Some f2) (Some f2) 2 1 false None None None true.

Lemma rp_cells k j : (k < 3)%nat -> (j < 2)%nat -> isnum (fcell rp_f k j) /\ fval (fcell rp_f k j) ^ 2 = (INR (S j)) ^ 2.
Proof.
  destruct f2_val as [N2 V2]. pose proof f1_num as N1. pose proof f1_val as V1.
  assert (O : forall x : b64, isnum x -> isnum (Bopp x) /\ fval (Bopp x) = - fval x) by (intros x Hx; split; [unfold isnum; rewrite is_finite_Bopp; exact Hx|apply B2R_Bopp]).
  assert (Bx : forall (x : b64) r m, isnum x -> fval x = r -> r ^ 2 = INR m ^ 2 -> isnum x /\ fval x ^ 2 = INR m ^ 2) by (intros x r m H1 H2 H3; split; [exact H1|rewrite H2; exact H3]).
  destruct (O f1 N1) as [N1' V1']. destruct (O f2 N2) as [N2' V2']. rewrite V1 in V1'. rewrite V2 in V2'. intros Hk Hj.
  destruct k as [|[|[|k]]]; [| | |lia]; (destruct j as [|[|j]]; [| |lia]).
  - exact (Bx f1 _ 1%nat N1 V1 ltac:(simpl; lra)).
  - exact (Bx f2 _ 2%nat N2 V2 ltac:(simpl; lra)).
  - exact (Bx (Bopp f1) _ 1%nat N1' V1' ltac:(simpl; lra)).
  - exact (Bx f2 _ 2%nat N2 V2 ltac:(simpl; lra)).
  - exact (Bx f1 _ 1%nat N1 V1 ltac:(simpl; lra)).
  - exact (Bx (Bopp f2) _ 2%nat N2' V2' ltac:(simpl; lra)).
Qed.
Lemma rp_abs x m : x ^ 2 = INR (S m) ^ 2 -> Rabs x = INR (S m).
Proof. intros H. assert (0 <= INR (S m)) by apply pos_INR. rewrite <- (sqrt_Rsqr_abs x). unfold Rsqr. replace (x * x) with (INR (S m) * INR (S m)) by (replace (x * x) with (x ^ 2) by ring; rewrite H; ring). apply sqrt_square. exact H0. Qed.
Lemma rp_numbers : numbers rp_f 2.
Proof.
  intros k j Hk Hj. change (k < 3)%nat in Hk. change (j < 2)%nat in Hj. destruct (rp_cells k j Hk Hj) as [H1 H2]. split; [exact H1|].
  rewrite (rp_abs _ _ H2). destruct j as [|[|j]]; [simpl; lra|simpl; lra|lia].
Qed.
Lemma rp_valid : valid_returns (N := IEEE rounded_libm) rp_f.
Proof.
  split; [split; [reflexivity|]|split].
  - constructor; [reflexivity|]. constructor; [reflexivity|]. constructor; [reflexivity|]. constructor.
  - split; [reflexivity|]. split; [reflexivity|]. exact I.
  - discriminate.
Qed.
Lemma rp_vol j k : (j < 2)%nat -> (k < 3)%nat -> ex_vol rp_f 2 j k = INR (S j).
Proof.
  intros Hj Hk. unfold ex_vol. rewrite (ewavg_ext _ _ (fun _ => INR (S j) ^ 2)).
  - rewrite ewavg_const by (apply decay_bounds; lra). replace (INR (S j) ^ 2) with (INR (S j) * INR (S j)) by ring. apply sqrt_square. apply pos_INR.
  - intros s Hs. apply rp_cells; lia.
Qed.
Lemma rp_mom j i p : (j < 2)%nat -> (p + i < 3)%nat -> ex_mom rp_f 2 2 p i j j = 1.
Proof.
  intros Hj Hi. unfold ex_mom. rewrite (ewavg_ext _ _ (fun _ => 1)).
  - apply ewavg_const. apply decay_bounds; lra.
  - intros s Hs. unfold ex_adj. rewrite rp_vol by lia. destruct (rp_cells (p + s) j ltac:(lia) Hj) as [_ E]. assert (0 < INR (S j)) by (apply lt_0_INR; lia).
    assert (N : INR (S j) <> 0) by lra. clear H.
    replace (fval (fcell rp_f (p + s) j) / INR (S j) * (fval (fcell rp_f (p + s) j) / INR (S j))) with (fval (fcell rp_f (p + s) j) ^ 2 / INR (S j) ^ 2) by (field; exact N).
    rewrite E. field. exact N.
Qed.
Lemma decay_2 : decay 2 <= 3 / 4.
Proof.
  assert (B := decay_bounds 2 ltac:(lra)). assert (E : decay 2 * decay 2 = / 2).
  { unfold decay. rewrite <- Rpower_plus. replace (- / 2 + - / 2) with (- (1)) by lra. rewrite Rpower_Ropp, Rpower_1 by lra. reflexivity. }
  destruct (Rle_dec (decay 2) (3 / 4)); [assumption|exfalso; nra].
Qed.
Lemma rp_bound : rounding_bound 2 2 2 1 1 <= / 2.
Proof.
  unfold rounding_bound. assert (B := decay_bounds 2 ltac:(lra)). assert (D := decay_2).
  assert (I : / (1 - decay 2) <= 4) by (replace 4 with (/ / 4) by lra; apply Rinv_le_contravar; lra).
  assert (P : bpow radix2 (-42) <= / 1024) by (change (/ 1024) with (bpow radix2 (-10)); apply bpow_le; lia). assert (P0 : 0 < bpow radix2 (-42)) by apply bpow_gt_0.
  replace (bpow radix2 (-42) * (2 / 1) ^ 4 * (/ (1 - decay 2) + / (1 - decay 2)) / 1) with (32 * bpow radix2 (-42) * / (1 - decay 2)) by (field; lra).
  apply Rle_trans with (32 * bpow radix2 (-42) * 4); [apply Rmult_le_compat_l; lra|lra].
Qed.
Lemma rp_hyps : accurate rounded_libm /\ fval f2 = 2 /\ isnum f2 /\ vola_halflife rp_P = Some f2 /\ cov_halflife rp_P = Some f2 /\
  first_pos (min_periods_vola rp_P) = 1%nat /\ first_pos (min_periods_cov rp_P) = 0%nat /\ use_mean rp_P = false /\ p_clip_at rp_P = None /\
  valid_returns (N := IEEE rounded_libm) rp_f /\ length (findex rp_f) = 3%nat /\ numbers rp_f 2 /\
  (forall j k, (j < 2)%nat -> (1 <= k < 3)%nat -> 1 <= ex_vol rp_f 2 j k) /\
  (forall j i, (j < 2)%nat -> (0 <= i)%nat -> (1 + i < 3)%nat -> 1 <= ex_mom rp_f 2 2 1 i j j) /\ rounding_bound 2 2 2 1 1 <= / 2.
Proof.
  destruct f2_val as [N2 V2]. split; [exact rounded_accurate|]. split; [exact V2|]. split; [exact N2|]. repeat (split; [reflexivity|]).
  split; [exact rp_valid|]. split; [reflexivity|]. split; [exact rp_numbers|]. split; [|split; [|exact rp_bound]].
  - intros j k Hj Hk. rewrite rp_vol by lia. rewrite S_INR. pose proof (pos_INR j). lra.
  - intros j i Hj _ Hi. rewrite rp_mom by lia. lra.
Qed.
