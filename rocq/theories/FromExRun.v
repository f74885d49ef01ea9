(** * One asset, four days, two half-lives: the forecasts of the experts. *)
From Coq Require Import String Reals Lra Psatz List Bool ZArith Arith Lia Sorted.
From Verif Require Import Num Py Ewma Spec SpecEwma EwmaReal EwmaClosed EwmaProps EwmaProps3 EwmaAny Combination FromEwmas SpecFrom SpecRank EwmaPrefix.
Import ListNotations.
Local Open Scope R_scope.

Definition fr_x (j k : nat) : R := nth k [1; 2; 4; 8] 0.
Definition fr_f : frame (N := XR) time := mkFrame [1;2;3;4]%Z ["A"]%string [[Fin 1]; [Fin 2]; [Fin 4]; [Fin 8]].
Definition fr_pair (h : R) : option xr * option xr := (Some (Fin h), Some (Fin h)).
Definition fr_pairs : list (option xr * option xr) := [fr_pair 1; fr_pair (/ 2)].
Definition fr_label (p : option xr * option xr) : string :=
  match fst p with Some (Fin h) => if Req_EM_T h 1 then "1-1"%string else "0.5-0.5"%string | _ => EmptyString end.
Definition fr_P (h : R) : params (N := XR) := pair_params (N := XR) 1 1 None false (fr_pair h).
Definition fr_var (h : R) (k : nat) : R := winsor_var h 1 None (fr_x 0) k.

Lemma fr_valid : valid_returns fr_f.
Proof. split; [split; [reflexivity|repeat constructor]|]. split; [simpl; lia|discriminate]. Qed.
Lemma fr_returns b : returns_are b fr_f fr_x.
Proof. intros k j Hk Hj. simpl in Hk, Hj. left. destruct j; [|lia]. do 4 (destruct k as [|k]; [reflexivity|]). lia. Qed.
Lemma fr_settings h : 0 < h -> settings (fr_P h) h h h h None.
Proof. intros H1. split; [split; auto|]. split; [split; auto|]. split; [left; auto|]. split; [left; auto|]. left; reflexivity. Qed.
Lemma fr_positive : positive_halflives fr_pairs.
Proof. intros p [<-|[<-|[]]]; eexists _, _; (split; [reflexivity|]); split; lra. Qed.
Lemma fr_moved : moved false fr_x 1 (first_pos 1).
Proof. exists 0%nat, 0%nat. split; [lia|]. split; [unfold first_pos; lia|]. unfold fr_x; simpl; lra. Qed.
Lemma fr_labels : map fr_label fr_pairs = ["1-1"; "0.5-0.5"]%string.
Proof. unfold fr_pairs, fr_label, fr_pair; cbn [map fst]. destruct (Req_EM_T 1 1); [|congruence]. destruct (Req_EM_T (/ 2) 1); [lra|reflexivity]. Qed.
Lemma fr_inj p q : In p fr_pairs -> In q fr_pairs -> fr_label p = fr_label q -> p = q.
Proof.
  intros Hp Hq. pose proof fr_labels as H. injection H as H1 H2.
  destruct Hp as [<-|[<-|[]]], Hq as [<-|[<-|[]]]; auto; rewrite H1, H2; discriminate.
Qed.

Lemma fr_decay_1 : decay 1 = / 2.
Proof. unfold decay. rewrite Rinv_1, Rpower_Ropp, Rpower_1 by lra. reflexivity. Qed.
Lemma fr_decay_2 : decay (/ 2) = / 4.
Proof. unfold decay. rewrite Rinv_inv, Rpower_Ropp. replace 2 with (INR 2) at 2 by (simpl; lra). rewrite Rpower_pow by lra. simpl. lra. Qed.
Lemma fr_eweight b k : 0 < b -> 0 < eweight b k k <= 1.
Proof.
  intros Hb. unfold eweight. rewrite Nat.sub_diag. cbn [pow].
  assert (Hr : 1 <= rsum (S k) (fun s => b ^ (k - s))).
  { cbn [rsum]. rewrite Nat.sub_diag. cbn [pow]. assert (forall m, 0 <= rsum m (fun s => b ^ (k - s))).
    { induction m; cbn [rsum]; [lra|]. pose proof (pow_lt b (k - m) Hb). lra. } specialize (H k). lra. }
  split; [apply Rdiv_lt_0_compat; lra|]. apply Rmult_le_reg_r with (rsum (S k) (fun s => b ^ (k - s))); [lra|].
  unfold Rdiv. rewrite Rmult_assoc, Rinv_l by lra. lra.
Qed.
Lemma fr_var_pos h k : 0 < h -> (k < 4)%nat -> 0 < fr_var h k.
Proof.
  intros Hh. unfold fr_var. induction k as [|k IH]; intros Hk; cbn [winsor_var]; [unfold fr_x; simpl; lra|].
  specialize (IH ltac:(lia)). pose proof (fr_eweight (decay h) (S k) (proj1 (decay_bounds h Hh))) as Hw.
  assert (0 < fr_x 0 (S k) ^ 2) by (apply pow_lt; unfold fr_x; do 3 (destruct k as [|k]; [simpl; lra|]); lia). nra.
Qed.
Lemma fr_var_1 : fr_var 1 0 = 1 /\ fr_var 1 1 = 3 /\ fr_var 1 2 = 73 / 7.
Proof. unfold fr_var; cbn [winsor_var]. unfold eweight. cbn [rsum minus pow]. rewrite !fr_decay_1. unfold fr_x; cbn [nth pow]. split; [|split]; field. Qed.
Lemma fr_var_2 : fr_var (/ 2) 0 = 1 /\ fr_var (/ 2) 1 = 17 / 5 /\ fr_var (/ 2) 2 = 13.
Proof. unfold fr_var; cbn [winsor_var]. unfold eweight. cbn [rsum minus pow]. rewrite !fr_decay_2. unfold fr_x; cbn [nth pow]. split; [|split]; field. Qed.

Lemma sorted_seq l m a : StronglySorted lt l -> (forall k, In k l <-> (a <= k < a + m)%nat) -> l = seq a m.
Proof.
  revert l a. induction m as [|m IH]; intros l a S H.
  - destruct l as [|b l]; auto. pose proof (proj1 (H b) (or_introl eq_refl)). lia.
  - destruct l as [|b l]; [destruct (proj2 (H a)); lia|]. inversion S as [|? ? S1 F1]; subst. rewrite Forall_forall in F1.
    assert (b = a). { destruct (proj2 (H a) ltac:(lia)) as [|H0]; auto. pose proof (F1 _ H0). pose proof (proj1 (H b) (or_introl eq_refl)). lia. }
    subst b. simpl. f_equal. apply IH; auto. intros k. split.
    + intros Hk. pose proof (F1 _ Hk). pose proof (proj1 (H k) (or_intror Hk)). lia.
    + intros Hk. destruct (proj2 (H k) ltac:(lia)) as [|]; auto. lia.
Qed.

(** The covariance at each time is the exponentially weighted average of the squared returns. *)
Lemma fr_items h : 0 < h -> exists outs, iterated_ewma (fr_P h) fr_f = Ok outs /\ map itime outs = [1;2;3;4]%Z /\
  forall i o, nth_error outs i = Some o -> cov_at o 0 0 = Fin (fr_var h i) /\ mean_at o 0 = Fin 0.
Proof.
  intros Hh. destruct (run_total (fr_P h) fr_f fr_x h h h h None (fr_settings h Hh) fr_valid (fr_returns _)) as (rows & S1 & S2 & S3 & S4).
  assert (Hr : rows = seq 0 4).
  { apply sorted_seq; auto. intros k. rewrite S2. unfold first_pos. unfold centred, fr_P, pair_params; cbn [min_periods_vola use_mean length findex fcols fr_f].
    split; [lia|]. intros Hk. split; [lia|]. exists 0%nat. split; [lia|right]. unfold fr_x. do 4 (destruct k as [|k]; [simpl; lra|]). lia. }
  subst rows. destruct (S4 ltac:(discriminate)) as (outs & E & Et & Hi). exists outs. split; [exact E|]. split; [exact Et|].
  intros i o Ho. specialize (Hi i o Ho). cbv zeta in Hi. specialize (Hi 0%nat ltac:(simpl; lia)).
  assert (Hlt : (i < 4)%nat).
  { assert (H : nth_error outs i <> None) by congruence. apply nth_error_Some in H. rewrite <- (map_length itime), Et in H. exact H. }
  cbn [fr_P pair_params use_mean min_periods_vola min_periods_cov] in *. unfold centred in Hi.
  replace (first_pos 1 + i)%nat with i in Hi by (unfold first_pos; lia).
  assert (Ek : nth i (seq 0 4) 0%nat = i) by (rewrite seq_nth by lia; lia). rewrite Ek in Hi.
  destruct Hi as (_ & Em & Hc). split; [|exact Em]. destruct (Hc 0%nat ltac:(simpl; lia)) as [Hf _].
  assert (V0 : exists s, (s <= i)%nat /\ standardised None (fr_x 0 (nth s (seq 0 4) 0%nat)) (sqrt (winsor_var h 1 None (fr_x 0) (nth s (seq 0 4) 0%nat))) <> 0).
  { exists 0%nat. split; [lia|]. pose proof (sqrt_lt_R0 _ (fr_var_pos h 0 Hh ltac:(lia))) as Hv.
    change (standardised None (fr_x 0 0) (sqrt (fr_var h 0)) <> 0).
    clear - Hv. unfold standardised, xdiv. set (v := sqrt _) in *. clearbody v. destruct (Req_EM_T v 0); [lra|]. cbn [xval]. unfold Rdiv.
    pose proof (Rinv_0_lt_compat _ Hv). unfold fr_x; simpl; nra. }
  destruct (Hf V0 V0) as (C1 & _ & ->). set (c := ewavg _ _ _) in *. clearbody c. clear - C1 Hlt Hh. rewrite sqrt_square by lra.
  change (winsor_var h 1 None (fun k : nat => fr_x 0 k) i) with (fr_var h i). rewrite sqrt_sqrt by (apply Rlt_le, fr_var_pos; auto). f_equal. field. lra.
Qed.
Lemma fr_takes : exists outs, iterated_ewma (fr_P 1) (frame_take 3 fr_f) = Ok outs /\ length outs = 3%nat.
Proof.
  assert (Hv : valid_returns (frame_take 3 fr_f)).
  { split; [split; [reflexivity|repeat constructor]|]. split; [simpl; lia|discriminate]. }
  assert (Hx : returns_are true (frame_take 3 fr_f) fr_x).
  { intros k j Hk Hj. simpl in Hk, Hj. left. destruct j; [|lia]. do 3 (destruct k as [|k]; [reflexivity|]). lia. }
  destruct (schedule_full (fr_P 1) (frame_take 3 fr_f) fr_x 1 1 1 1 None (fr_settings 1 ltac:(lra)) Hv Hx) as (outs & E1 & E2).
  - simpl. lia.
  - exists 0%nat, 0%nat. simpl. split; [lia|]. split; [unfold first_pos; lia|]. unfold fr_x; simpl; lra.
  - exists outs. split; auto. rewrite <- (map_length itime), E2. reflexivity.
Qed.
