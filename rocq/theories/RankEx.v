(** * Two assets, two days: one covariance row is not enough, two are. *)
From Coq Require Import String Reals Lra Psatz List Bool ZArith Arith Lia Sorted.
From Verif Require Import Num Py Ewma Spec SpecEwma EwmaReal EwmaClosed EwmaProps EwmaProps3 Combination FromEwmas SpecFrom SpecRank IewmaRank.
Import ListNotations.
Local Open Scope R_scope.

Definition rk_x (j k : nat) : R := nth k (nth j [[1; -1]; [2; 1]] []) 0.
Definition rk_f : frame (N := XR) time := mkFrame [1;2]%Z ["A";"B"]%string [[Fin 1; Fin 2]; [Fin (-1); Fin 1]].
Definition rk_P (mpc : nat) (h1 h2 : R) : params (N := XR) := pair_params (N := XR) 1 mpc None false (Some (Fin h1), Some (Fin h2)).
Lemma rk_valid : valid_returns rk_f.
Proof. split; [split; [reflexivity|repeat constructor]|]. split; [simpl; lia|discriminate]. Qed.
Lemma rk_returns : returns_are true rk_f rk_x.
Proof. intros k j Hk Hj. simpl in Hk, Hj. left. do 2 (destruct k as [|k]; [do 2 (destruct j as [|j]; [reflexivity|]); lia|]). lia. Qed.
Lemma rk_settings mpc h1 h2 : 0 < h1 -> 0 < h2 -> settings (rk_P mpc h1 h2) h1 h2 h1 h2 None.
Proof. intros H1 H2. split; [split; auto|]. split; [split; auto|]. split; [left; auto|]. split; [left; auto|]. left; reflexivity. Qed.
Lemma sorted_01 l : StronglySorted lt l -> (forall k, In k l <-> (k < 2)%nat) -> l = [0%nat; 1%nat].
Proof.
  intros S H. destruct l as [|a l]; [destruct (proj2 (H 0%nat)); lia|]. inversion S as [|? ? S1 F1]; subst. rewrite Forall_forall in F1.
  assert (a = 0%nat). { destruct (proj2 (H 0%nat) ltac:(lia)) as [|H0]; auto. specialize (F1 _ H0). lia. } subst a.
  destruct l as [|b l]; [destruct (proj2 (H 1%nat) ltac:(lia)) as [|[]]; lia|]. inversion S1 as [|? ? S2 F2]; subst. rewrite Forall_forall in F2.
  assert (b = 1%nat). { pose proof (F1 b (or_introl eq_refl)). pose proof (proj1 (H b) ltac:(right; left; auto)). lia. } subst b.
  destruct l as [|c l]; auto. pose proof (F2 c (or_introl eq_refl)). pose proof (proj1 (H c) ltac:(right; right; left; auto)). lia.
Qed.
Lemma rk_var h j k : 0 < h -> (j < 2)%nat -> (k < 2)%nat -> 0 < winsor_var h 1 None (rk_x j) k.
Proof.
  intros Hh Hj Hk. assert (Hx : forall s, (s < 2)%nat -> 0 < rk_x j s ^ 2).
  { intros s Hs. destruct j as [|[|j]]; [| |lia]; destruct s as [|[|s]]; try lia; unfold rk_x; simpl; lra. }
  destruct k as [|[|k]]; [| |lia]; cbn [winsor_var]; [apply Hx; lia|].
  pose proof (decay_bounds h Hh) as Hb. pose proof (Hx 0%nat ltac:(lia)). pose proof (Hx 1%nat ltac:(lia)).
  assert (0 < eweight (decay h) 1 1 < 1) as Hw.
  { unfold eweight. simpl. split; [apply Rdiv_lt_0_compat; lra|]. apply (Rmult_lt_reg_r (0 + decay h * 1 + 1)); [lra|]. field_simplify; lra. }
  nra.
Qed.
Lemma rk_run mpc h1 h2 : (1 <= mpc <= 2)%nat -> 0 < h1 -> 0 < h2 -> exists outs o, iterated_ewma (rk_P mpc h1 h2) rk_f = Ok outs /\ nth_error outs 0 = Some o.
Proof.
  intros Hm H1 H2. destruct (schedule_full (rk_P mpc h1 h2) rk_f rk_x h1 h2 h1 h2 None (rk_settings mpc h1 h2 H1 H2) rk_valid rk_returns) as (outs & E1 & E2).
  - simpl. lia.
  - exists 0%nat, 0%nat. simpl. split; [lia|]. split; [unfold first_pos; lia|]. unfold rk_x; simpl; lra.
  - exists outs. destruct outs as [|o l]; [|exists o; auto]. exfalso. cbn [rk_P pair_params min_periods_vola min_periods_cov] in E2. unfold first_pos in E2.
    destruct mpc as [|[|[|m]]]; try lia; discriminate.
Qed.
Lemma rk_definite h1 h2 : 0 < h1 -> 0 < h2 -> forall outs o, iterated_ewma (rk_P 2 h1 h2) rk_f = Ok outs -> In o outs -> definite_item 2 o.
Proof.
  intros H1 H2 outs o E Hin. destruct (run_definite (rk_P 2 h1 h2) rk_f rk_x h1 h2 h1 h2 None (rk_settings _ _ _ H1 H2) rk_valid rk_returns) as (rows & S1 & S2 & HD).
  cbn [rk_P pair_params use_mean min_periods_vola min_periods_cov] in *. unfold centred in *.
  assert (Hr : rows = [0%nat; 1%nat]).
  { apply sorted_01; auto. intros k. rewrite S2. unfold first_pos. simpl length. split; [lia|]. intros Hk. split; [lia|]. exists 0%nat. split; [lia|right].
    destruct k as [|[|k]]; [| |lia]; unfold rk_x; simpl; lra. }
  subst rows. destruct (schedule_full (rk_P 2 h1 h2) rk_f rk_x h1 h2 h1 h2 None (rk_settings 2 h1 h2 H1 H2) rk_valid rk_returns) as (outs' & E1 & E2).
  { simpl. lia. } { exists 0%nat, 0%nat. simpl. split; [lia|]. split; [unfold first_pos; lia|]. unfold rk_x; simpl; lra. }
  change (iterated_ewma (rk_P 2 h1 h2) rk_f = Ok outs) in E. rewrite E in E1. injection E1 as <-. cbn in E2.
  destruct outs as [|o0 [|]]; try discriminate. destruct Hin as [->|[]].
  destruct (HD [o] E 0%nat o eq_refl) as [_ Hiff]. apply Hiff. split.
  - intros p Hp. apply sqrt_lt_R0. cbn [nth first_pos plus minus]. apply rk_var; auto.
  - cbn [first_pos plus minus]. intros w Hw.
    pose proof (Hw 0%nat ltac:(lia)) as W0. pose proof (Hw 1%nat ltac:(lia)) as W1. cbn [length fcols rk_f rsum nth] in W0, W1.
    assert (V : forall j k, (j < 2)%nat -> (k < 2)%nat -> 0 < sqrt (winsor_var h1 1 None (rk_x j) k)) by (intros; apply sqrt_lt_R0, rk_var; auto).
    pose proof (V 0%nat 0%nat ltac:(lia) ltac:(lia)) as V00. pose proof (V 0%nat 1%nat ltac:(lia) ltac:(lia)) as V01.
    pose proof (V 1%nat 0%nat ltac:(lia) ltac:(lia)) as V10. pose proof (V 1%nat 1%nat ltac:(lia) ltac:(lia)) as V11.
    set (v00 := sqrt (winsor_var h1 1 None (rk_x 0) 0)) in *. set (v01 := sqrt (winsor_var h1 1 None (rk_x 0) 1)) in *.
    set (v10 := sqrt (winsor_var h1 1 None (rk_x 1) 0)) in *. set (v11 := sqrt (winsor_var h1 1 None (rk_x 1) 1)) in *.
    clearbody v00 v01 v10 v11.
    assert (St : forall y v, 0 < v -> standardised None y v = y / v).
    { intros y v Hv'. unfold standardised, xdiv. destruct (Req_EM_T v 0); [lra|reflexivity]. }
    rewrite !St in W0, W1 by auto. unfold rk_x in W0, W1. cbn [nth] in W0, W1.
    assert (A : 0 < / v00) by (apply Rinv_0_lt_compat; auto). assert (B : 0 < / v10) by (apply Rinv_0_lt_compat; auto).
    assert (C : 0 < / v01) by (apply Rinv_0_lt_compat; auto). assert (D : 0 < / v11) by (apply Rinv_0_lt_compat; auto).
    unfold Rdiv in W0, W1. set (a := / v00) in *. set (b := / v10) in *. set (c := / v01) in *. set (d := / v11) in *. clearbody a b c d.
    assert (w 1%nat = 0).
    { assert (E0 : w 1%nat * (2 * b * c + a * d) = 0) by nra. apply Rmult_integral in E0. destruct E0 as [|E0]; auto. nra. }
    assert (w 0%nat = 0) by nra.
    intros p Hp. simpl in Hp. destruct p as [|[|p]]; [auto|auto|lia].
Qed.
Lemma rk_single_nan_free h1 h2 : 0 < h1 -> 0 < h2 -> forall outs o, iterated_ewma (rk_P 1 h1 h2) rk_f = Ok outs -> nth_error outs 0 = Some o -> nan_free_item 2 o.
Proof.
  intros H1 H2 outs o E Ho.
  destruct (EwmaAny.run_total (rk_P 1 h1 h2) rk_f rk_x h1 h2 h1 h2 None (rk_settings _ _ _ H1 H2) rk_valid rk_returns) as (rows & S1 & S2 & S3 & S4).
  cbn [rk_P pair_params use_mean min_periods_vola min_periods_cov] in *. unfold centred in *.
  assert (Hr : rows = [0%nat; 1%nat]).
  { apply sorted_01; auto. intros k. rewrite S2. unfold first_pos. simpl length. split; [lia|]. intros Hk. split; [lia|]. exists 0%nat. split; [lia|right].
    destruct k as [|[|k]]; [| |lia]; unfold rk_x; simpl; lra. }
  subst rows. destruct (S4 ltac:(discriminate)) as (outs' & E' & _ & Hi). change (iterated_ewma (rk_P 1 h1 h2) rk_f = Ok outs) in E.
  change (iterated_ewma (rk_P 1 h1 h2) rk_f = Ok outs') in E'. rewrite E in E'. injection E' as <-. specialize (Hi 0%nat o Ho). cbv zeta in Hi.
  assert (V : forall p, (p < 2)%nat -> exists s, (s <= 0)%nat /\ standardised None (rk_x p (nth s [0%nat; 1%nat] 0%nat)) (sqrt (winsor_var h1 1 None (rk_x p) (nth s [0%nat; 1%nat] 0%nat))) <> 0).
  { intros p Hp. exists 0%nat. split; auto. cbn [nth]. pose proof (sqrt_lt_R0 _ (rk_var h1 p 0 H1 Hp ltac:(lia))) as Hv.
    unfold standardised, xdiv. set (v := sqrt _) in *. clearbody v. destruct (Req_EM_T v 0); [lra|]. cbn [xval]. unfold Rdiv.
    pose proof (Rinv_0_lt_compat _ Hv). destruct p as [|[|p]]; [| |lia]; unfold rk_x; simpl; nra. }
  intros p q Hp Hq. destruct (Hi p Hp) as (_ & _ & Hc). destruct (Hc q Hq) as [Hf _].
  destruct Hf as (_ & _ & ->); [apply V; auto|apply V; auto|eauto].
Qed.
