(** * C117: enough data for a positive definite covariance. *)
From Coq Require Import String Reals Lra List ZArith Arith Lia Sorted.
From Verif Require Import Num Py Ewma Spec SpecEwma Combination FromEwmas SpecRank IewmaRank RankEx.
Import ListNotations.
Local Open Scope R_scope.

(** Item i of a run is free of NaN and positive definite iff every volatility in it is positive and the standardised
    (centred) rows seen so far span all assets.  rows, z as in C61. *)
Theorem C117_definite : forall P f x hv hc h1 h2 rc,
  settings P hv hc h1 h2 rc -> valid_returns f -> returns_are (nan_to_num P) f x ->
  let n := length (fcols f) in
  let y := centred (use_mean P) h1 x in
  let v := fun j s => sqrt (winsor_var hv (min_periods_vola P) rc (y j) s) in
  exists rows : list nat,
    StronglySorted lt rows /\
    (forall k, In k rows <-> (first_pos (min_periods_vola P) <= k < length (findex f))%nat /\
       exists j, (j < n)%nat /\ (v j k <> 0 \/ y j k <> 0)) /\
    forall outs, iterated_ewma P f = Ok outs -> forall i o, nth_error outs i = Some o ->
      let r := (first_pos (min_periods_cov P) + i)%nat in
      let k := nth r rows 0%nat in
      let z := fun j s => standardised rc (y j (nth s rows 0%nat)) (v j (nth s rows 0%nat)) in
      let a := centred (use_mean P) h2 z in
      itime o = nth k (findex f) 0%Z /\
      (definite_item n o <-> (forall p, (p < n)%nat -> 0 < v p k) /\ rows_span n r a).
Proof. exact run_definite. Qed.
Print Assumptions C117_definite.

(** Item i has seen (first_pos min_periods_cov + i + 1) rows, one of which is lost to the mean if use_mean: with fewer of
    them than assets its covariance is not positive definite. *)
Theorem C117_too_few : forall P f x hv hc h1 h2 rc,
  settings P hv hc h1 h2 rc -> valid_returns f -> returns_are (nan_to_num P) f x ->
  forall outs i o, iterated_ewma P f = Ok outs -> nth_error outs i = Some o ->
  (first_pos (min_periods_cov P) + i + (if use_mean P then 0 else 1) < length (fcols f))%nat ->
  ~ definite_item (length (fcols f)) o.
Proof. exact run_too_few. Qed.
Print Assumptions C117_too_few.

(** Two assets: one row is not enough, two rows are. *)
Example C117_case_few : exists outs o, iterated_ewma (rk_P 1 2 3) rk_f = Ok outs /\ nth_error outs 0 = Some o /\
  settings (rk_P 1 2 3) 2 3 2 3 None /\ valid_returns rk_f /\ returns_are true rk_f rk_x /\ (first_pos 1 + 0 + 1 < length (fcols rk_f))%nat.
Proof.
  destruct (rk_run 1 2 3) as (outs & o & E & Ho); [lia|lra|lra|]. exists outs, o. split; auto. split; auto.
  split; [apply rk_settings; lra|]. split; [apply rk_valid|]. split; [apply rk_returns|]. simpl. lia.
Qed.
Example C117_case_enough : exists outs o, iterated_ewma (rk_P 2 2 3) rk_f = Ok outs /\ nth_error outs 0 = Some o /\ definite_item 2 o.
Proof.
  destruct (rk_run 2 2 3) as (outs & o & E & Ho); [lia|lra|lra|]. exists outs, o. split; auto. split; auto.
  apply (rk_definite 2 3 ltac:(lra) ltac:(lra) outs o E). exact (nth_error_In _ _ Ho).
Qed.
