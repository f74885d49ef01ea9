(** * C144: a first return of zero is not a small return. *)
From Coq Require Import String Reals Lra Psatz List Bool ZArith Arith Lia Sorted.
From Verif Require Import Num Py ListFacts Ewma Spec SpecEwma EwmaReal EwmaClosed EwmaProps EwmaProps3 EwmaAny Combination FromEwmas FromExRun FromCont1.
Import ListNotations.
Local Open Scope R_scope.

Definition jp_x (e : R) (j k : nat) : R := nth k [e; 1] 0.
Definition jp_f (e : R) : frame (N := XR) time := mkFrame [1;2]%Z ["A"]%string [[Fin e]; [Fin 1]].
Lemma jp_valid e : valid_returns (jp_f e).
Proof. split; [split; [reflexivity|repeat constructor]|]. split; [simpl; lia|discriminate]. Qed.
Lemma jp_returns b e : returns_are b (jp_f e) (jp_x e).
Proof. intros k j Hk Hj. simpl in Hk, Hj. left. destruct j; [|lia]. do 2 (destruct k as [|k]; [reflexivity|]). lia. Qed.

Theorem jump h : 0 < h ->
  (exists outs, iterated_ewma (fr_P h) (jp_f 0) = Ok outs /\ map itime outs = [2]%Z) /\
  forall e, e <> 0 -> exists outs, iterated_ewma (fr_P h) (jp_f e) = Ok outs /\ map itime outs = [1;2]%Z.
Proof.
  intros Hh.
  assert (V0 : winsor_var h 1 None (jp_x 0 0) 0 = 0) by (cbn; ring).
  split.
  - destruct (run_total (fr_P h) (jp_f 0) (jp_x 0) h h h h None (fr_settings h Hh) (jp_valid 0) (jp_returns _ _)) as (rows & S1 & S2 & S3 & S4).
    assert (Hr : rows = seq 1 1).
    { apply sorted_seq; auto. intros k. rewrite S2. unfold first_pos. unfold centred, fr_P, pair_params; cbn [min_periods_vola use_mean length findex fcols jp_f]. split.
      - intros ((A & B) & j & J & C). assert (j = 0)%nat by lia. subst j. destruct k as [|k]; [|lia]. exfalso. destruct C as [C|C].
        + apply C. change (sqrt (winsor_var h 1 None (jp_x 0 0) 0) = 0). rewrite V0. apply sqrt_0.
        + apply C. reflexivity.
      - intros Hk. split; [lia|]. exists 0%nat. split; [lia|right]. replace k with 1%nat by lia. unfold jp_x; simpl; lra. }
    subst rows. destruct (S4 ltac:(discriminate)) as (outs & E & Et & _). exists outs. split; [exact E|exact Et].
  - intros e He.
    destruct (run_total (fr_P h) (jp_f e) (jp_x e) h h h h None (fr_settings h Hh) (jp_valid e) (jp_returns _ _)) as (rows & S1 & S2 & S3 & S4).
    assert (Hr : rows = seq 0 2).
    { apply sorted_seq; auto. intros k. rewrite S2. unfold first_pos. unfold centred, fr_P, pair_params; cbn [min_periods_vola use_mean length findex fcols jp_f].
      split; [lia|]. intros Hk. split; [lia|]. exists 0%nat. split; [lia|right]. destruct k as [|[|k]]; [exact He|unfold jp_x; simpl; lra|lia]. }
    subst rows. destruct (S4 ltac:(discriminate)) as (outs & E & Et & _). exists outs. split; [exact E|exact Et].
Qed.
