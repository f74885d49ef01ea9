(** * Training returns extended by finite sampled rows stay good data (plain part of SamplingReal.v). *)
From Coq Require Import Reals Lra ZArith String List Lia.
From Verif Require Import Num Py ListFacts Ewma EwmaPrefix Spec SpecEwma SpecFrom SpecActive SpecComb CombFacts FromRun CmIewma CmRun SamplingProps CombProps.
Import ListNotations.

(** No missing or infinite entry. *)
Definition finite_row (v : list xr) : Prop := Forall (fun a => exists r, a = Fin r) v.

Lemma fin_nth v j : finite_row v -> j < length v -> nth j v NaN = Fin (xval (nth j v NaN)).
Proof. intros H Hj. unfold finite_row in H. rewrite Forall_forall in H. destruct (H _ (nth_In v NaN Hj)) as (r & E). rewrite E. reflexivity. Qed.
Lemma nth_error_skip {A} (l : list A) a b : nth_error (skipn a l) b = nth_error l (a + b).
Proof. revert a. induction l as [|z l IH]; intros a; [rewrite skipn_nil; destruct a, b; reflexivity|]. destruct a; [reflexivity|]. cbn. apply IH. Qed.
Lemma last_of_skip (pre : list Z) t k idx : pre ++ [t] = skipn k idx -> nth_error idx (length idx - 1) = Some t.
Proof.
  intros D. assert (Lk : length pre + 1 = length idx - k) by (rewrite <- skipn_length, <- D, app_length; reflexivity).
  assert (Q : nth_error (skipn k idx) (length pre) = Some t) by (rewrite <- D, nth_error_app2, Nat.sub_diag by lia; reflexivity).
  rewrite nth_error_skip in Q. rewrite <- Q. f_equal. lia.
Qed.

Section Ext.
  Context (train : frame (N := XR) time) (x : nat -> nat -> R) (dates : list Z) (rows : list (list xr)) (mpv mpc : nat).
  Let m := length (findex train).
  Let n := length (fcols train).
  Let g := mkFrame (findex train ++ dates) (fcols train) (fvals train ++ rows).
  Hypothesis Hv : valid_returns train.
  Hypothesis Hx : returns_are false train x.
  Hypothesis HD : length rows = length dates.
  Hypothesis HR : forall j, j < length rows -> finite_row (nth j rows []) /\ length (nth j rows []) = n.
  Hypothesis Hi : increasing (findex g).
  Definition ext_val (j k : nat) : R := xval (entry g k j).
  Lemma hl : length (findex train) = length (fvals train). Proof. apply Hv. Qed.
  Lemma ext_old j k : j < n -> k < m -> ext_val j k = x j k.
  Proof.
    intros Hj Hk. unfold ext_val, entry, g. cbn [fvals]. rewrite app_nth1 by (rewrite <- hl; exact Hk).
    destruct (Hx k j Hk Hj) as [E|(_ & E & _)]; [|discriminate E]. unfold entry in E. rewrite E. reflexivity.
  Qed.
  Lemma ext_all j k : j < n -> k < m + length dates -> entry g k j = Fin (ext_val j k).
  Proof.
    intros Hj Hk. destruct (le_lt_dec m k) as [L|L].
    - unfold ext_val, entry, g. cbn [fvals]. rewrite app_nth2 by (rewrite <- hl; exact L). destruct (HR (k - length (fvals train)) ltac:(rewrite <- hl; fold m; lia)) as (A1 & A2).
      apply fin_nth; [exact A1|exact (eq_ind_r (fun z => j < z) Hj A2)].
    - rewrite ext_old by assumption. unfold entry, g. cbn [fvals]. rewrite app_nth1 by (rewrite <- hl; exact L). destruct (Hx k j L Hj) as [E|(_ & E & _)]; [exact E|discriminate E].
  Qed.
  Lemma ext_len : length (fvals g) = length (findex g).
  Proof. unfold g. cbn [findex fvals]. rewrite !app_length. f_equal; [symmetry; exact hl|exact HD]. Qed.
  Lemma ext_m : length (findex g) = m + length dates.
  Proof. unfold g. cbn [findex]. rewrite app_length. reflexivity. Qed.
  Lemma ext_valid k : valid_returns (frame_take k g).
  Proof.
    split; [split|split; [|apply Hv]].
    - cbn [frame_take findex fvals]. rewrite !firstn_length. f_equal. symmetry. exact ext_len.
    - apply Forall_forall. intros r Hr. cbn [frame_take fvals] in Hr. assert (Hr1 : In r (fvals g)) by (rewrite <- (firstn_skipn k (fvals g)); apply in_or_app; left; exact Hr).
      unfold g in Hr1. cbn [fvals] in Hr1. apply in_app_or in Hr1. destruct Hr1 as [Hr1|Hr1]; [apply (proj1 (Forall_forall _ _) (proj2 (proj1 Hv)) r Hr1)|].
      destruct (In_nth _ _ [] Hr1) as (a & A1 & <-). apply HR. exact A1.
    - cbn. apply (increasing_app_l _ (skipn k (findex g))). rewrite firstn_skipn. exact Hi.
  Qed.
  Lemma ext_rows k : k <= m + length dates -> length (findex (frame_take k g)) = k.
  Proof. intros H. unfold g, frame_take. cbn [findex]. rewrite firstn_length, app_length. fold m. lia. Qed.
  Lemma ext_returns k : k <= m + length dates -> returns_are false (frame_take k g) ext_val.
  Proof.
    intros Hk a j Ha Hj. rewrite ext_rows in Ha by exact Hk. left. rewrite <- ext_all; [|exact Hj|lia]. unfold entry. f_equal. cbn [frame_take fvals].
    rewrite <- (firstn_skipn k (fvals g)) at 2. rewrite app_nth1; [reflexivity|]. rewrite firstn_length. assert (E := ext_len). rewrite ext_m in E. lia.
  Qed.
  Lemma ext_moved : first_pos mpv < m -> moved false x n (first_pos mpv) -> moved false ext_val n (first_pos mpv).
  Proof. intros Hm (j & s & J1 & J2 & J3). exists j, s. split; [exact J1|]. split; [exact J2|]. rewrite ext_old; [exact J3|exact J1|]. lia. Qed.
  Lemma ext_active : first_pos mpv + first_pos mpc < m -> active x n mpv mpc -> active ext_val n mpv mpc.
  Proof. intros Hm Ha j Hj. destruct (Ha j Hj) as (s & S1 & S2). exists s. split; [exact S1|]. rewrite ext_old; [exact S2|exact Hj|]. lia. Qed.
  Lemma ext_start : frame_take m g = train.
  Proof. unfold g, frame_take. cbn [findex fcols fvals]. unfold m. rewrite first_len. rewrite hl, first_len. destruct train; reflexivity. Qed.
  Lemma ext_row i : nth (m + i) (fvals g) [] = nth i rows [].
  Proof. unfold g. cbn [fvals]. rewrite app_nth2 by (rewrite <- hl; unfold m; lia). f_equal. rewrite <- hl. unfold m. lia. Qed.
  Lemma ext_last k t : 0 < k <= m + length dates -> nth_error (findex (frame_take k g)) (length (findex (frame_take k g)) - 1) = Some t -> nth_error (findex g) (k - 1) = Some t.
  Proof.
    intros Hk H. rewrite ext_rows in H by lia. rewrite <- H. cbn [frame_take findex]. rewrite <- (firstn_skipn k (findex g)) at 1. rewrite nth_error_app1; [reflexivity|].
    rewrite firstn_length. unfold g. cbn [findex]. rewrite app_length. fold m. lia.
  Qed.
End Ext.
