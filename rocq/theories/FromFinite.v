(** * Which returns give items without NaN (mean = False). *)
From Coq Require Import String Reals Lra List Bool ZArith Arith Lia Sorted.
From Verif Require Import Num Py ListFacts Ewma EwmaTot Spec SpecEwma EwmaProps EwmaProps3 EwmaAny EwmaClosed Combination FromEwmas SpecFrom FromEwmasProps SpecRank SpecActive SpecFromR.
Import ListNotations.
Local Open Scope R_scope.

Lemma finite_items (returns : frame (N := XR) time) x pairs mpv mpc clip_at rc :
  valid_returns returns -> returns_are true returns x -> positive_halflives pairs -> clip_is clip_at rc ->
  active x (length (fcols returns)) mpv mpc ->
  forall p outs o, In p pairs -> iterated_ewma (pair_params (N := XR) mpv mpc clip_at false p) returns = Ok outs -> In o outs ->
  finite_item (length (fcols returns)) o.
Proof.
  intros Hv Hx Hp Hcl Ha p outs o Hin E Ho. destruct (pair_settings pairs mpv mpc clip_at rc false Hp Hcl p Hin) as (h1 & h2 & HS & _).
  destruct (schedule_any _ _ _ _ _ _ _ _ HS Hv Hx outs E) as (_ & Ht).
  rewrite Forall_map, Forall_forall in Ht. specialize (Ht o Ho). apply In_nth with (d := 0%Z) in Ht. destruct Ht as (m & Hm & Em).
  rewrite skipn_length in Hm. rewrite nth_skipn_eq in Em. cbn [pair_params min_periods_vola min_periods_cov] in Hm, Em. set (k := (_ + _ + m)%nat) in Em.
  assert (Hk : (k < length (findex returns))%nat) by (unfold k; lia).
  split.
  - intros i j Hi Hj. destruct (nan_pattern _ _ _ _ _ _ _ _ HS Hv Hx outs o k i j eq_refl E Ho Hk (eq_sym Em) Hi Hj) as [Hn Hf]. apply Hf.
    rewrite Hn. cbn [pair_params min_periods_vola]. intros [H0|H0].
    + destruct (Ha i Hi) as (s & H1 & H3). apply H3, H0. unfold k. lia.
    + destruct (Ha j Hj) as (s & H1 & H3). apply H3, H0. unfold k. lia.
  - intros i Hi. destruct (run_total _ _ _ _ _ _ _ _ HS Hv Hx) as (rows & _ & _ & R1 & R2).
    destruct rows as [|r rows]; [rewrite R1 in E by auto; discriminate|]. destruct (R2 ltac:(discriminate)) as (outs' & E' & _ & H).
    rewrite E in E'. injection E' as <-. apply In_nth_error in Ho. destruct Ho as (z & Hz). destruct (H z o Hz i Hi) as (_ & Hm' & _). eauto.
Qed.
