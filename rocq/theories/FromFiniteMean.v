(** * Which returns give items without NaN (mean = True). *)
From Coq Require Import String Reals Lra Psatz List Bool ZArith Arith Lia Sorted.
From Verif Require Import Num Py ListFacts Ewma EwmaTot Spec SpecEwma EwmaReal EwmaProps EwmaProps3 EwmaAny EwmaClosed Combination FromEwmas SpecFrom FromEwmasProps SpecRank SpecCross SpecFromR CmPos.
Import ListNotations.
Local Open Scope R_scope.

Lemma const_of_centred b u r : 0 < b < 1 -> (forall s, (s <= r)%nat -> u s - ewavg b u s = 0) -> forall s, (s <= r)%nat -> u s = u 0%nat.
Proof.
  intros Hb H. assert (G : forall s, (s <= r)%nat -> u s = u 0%nat /\ ewavg b u s = u 0%nat).
  { induction s as [|s IH]; intros Hs; [rewrite ewavg_0 by auto; auto|]. destruct (IH ltac:(lia)) as [_ E]. pose proof (H (S s) Hs) as E2.
    rewrite ewavg_S, E in E2 by auto. rewrite ewavg_S, E by auto. pose proof (eweight_last b (S s) (proj1 Hb) ltac:(lia)) as W.
    rewrite eweight_wnew in W by auto. assert (u (S s) = u 0%nat) by nra. rewrite H0. split; [auto|nra]. }
  intros s Hs. apply G, Hs.
Qed.
Lemma std_sign rc y v : (forall c, rc = Some c -> c <> 0) -> 0 <= v -> (rc = None -> v = 0 -> y = 0) ->
  (0 < y -> 0 < standardised rc y v) /\ (y < 0 -> standardised rc y v < 0).
Proof.
  intros Hc Hv Hn. unfold standardised, xdiv. destruct (Req_EM_T v 0) as [E|E].
  - destruct rc as [c|]; [|specialize (Hn eq_refl E); split; intros; lra]. pose proof (Rabs_pos_lt c (Hc c eq_refl)). unfold inf_sgn.
    split; intros Hy; destruct (Rlt_dec 0 y); cbn [limit xval]; try lra. destruct (Rlt_dec y 0); cbn [limit xval]; lra.
  - assert (0 < v) by lra. split; intros Hy.
    + assert (0 < y / v) by (apply Rdiv_lt_0_compat; lra). destruct rc as [c|]; cbn [limit xval]; auto.
      pose proof (Rabs_pos_lt c (Hc c eq_refl)). apply Rlt_le_trans with (Rmin (Rabs c) (y / v)); [apply Rmin_glb_lt; auto|apply Rmax_r].
    + assert (y / v < 0) by (unfold Rdiv; pose proof (Rinv_0_lt_compat v H); nra). destruct rc as [c|]; cbn [limit xval]; auto.
      pose proof (Rabs_pos_lt c (Hc c eq_refl)). apply Rmax_lub_lt; [lra|]. apply Rle_lt_trans with (y / v); [apply Rmin_r|auto].
Qed.

Lemma finite_items_mean (returns : frame (N := XR) time) x pairs mpv mpc clip_at rc :
  valid_returns returns -> returns_are true returns x -> positive_halflives pairs -> clip_is clip_at rc ->
  (forall p h, In p pairs -> fst p = Some (Fin h) -> crosses h x (length (fcols returns)) mpv mpc) ->
  forall p outs o, In p pairs -> iterated_ewma (pair_params (N := XR) mpv mpc clip_at true p) returns = Ok outs -> In o outs ->
  finite_item (length (fcols returns)) o.
Proof.
  intros Hv Hx Hp Hcl Ha p outs o Hin E Ho. destruct (Hp p Hin) as (h1 & h2 & Ep & H1 & H2).
  assert (HS : settings (pair_params (N := XR) mpv mpc clip_at true p) h1 h2 h1 h2 rc).
  { rewrite Ep. split; [split; auto|]. split; [split; auto|]. split; [left; auto|]. split; [left; auto|]. exact Hcl. }
  assert (Hc : forall c, rc = Some c -> c <> 0) by (intros c ->; apply Hcl).
  destruct (run_total _ _ _ _ _ _ _ _ HS Hv Hx) as (rows & S1 & S2 & R1 & R2).
  assert (Hne : rows <> []) by (intros E0; assert (X : Ok outs = Raise IndexError) by (etransitivity; [symmetry; exact E|exact (R1 E0)]); discriminate).
  destruct (R2 Hne) as (outs' & E' & Et & H).
  assert (X : Ok outs = Ok outs') by (etransitivity; [symmetry; exact E|exact E']). injection X as <-. apply In_nth_error in Ho. destruct Ho as (m & Hm).
  specialize (H m o Hm). cbn [pair_params use_mean min_periods_vola min_periods_cov] in *.
  set (y := centred true h1 x) in *. set (z := fun j s => standardised rc _ _) in H.
  assert (Hz2 : (m < length outs)%nat) by (apply nth_error_Some; congruence).
  rewrite <- (map_length itime), Et, map_length, skipn_length in Hz2.
  assert (Hlast : (first_pos mpv + first_pos mpc < length (findex returns))%nat).
  { assert (Hl : In (nth (first_pos mpc + m) rows 0%nat) rows) by (apply nth_In; lia). pose proof (sorted_nth_ge rows (first_pos mpv) S1 (fun k Hk => proj1 (proj1 (proj1 (S2 k) Hk))) (first_pos mpc + m)%nat ltac:(lia)).
    apply S2 in Hl. lia. }
  assert (Key : forall i, (i < length (fcols returns))%nat -> exists s, (s <= first_pos mpc + m)%nat /\ centred true h2 z i s <> 0).
  { intros i Hi. destruct (Ha p h1 Hin ltac:(rewrite Ep; reflexivity) i Hi) as (s & s' & B & B' & Y & Y').
    assert (Pos : forall t, (first_pos mpv <= t <= first_pos mpv + first_pos mpc)%nat -> y i t <> 0 -> exists q, (q <= first_pos mpc + m)%nat /\ nth q rows 0%nat = t).
    { intros t Ht Yt. assert (It : In t rows) by (apply S2; split; [lia|]; exists i; auto). destruct (In_nth _ _ 0%nat It) as (q & Q1 & Q2). exists q. split; [|exact Q2].
      pose proof (sorted_nth_ge rows (first_pos mpv) S1 (fun k Hk => proj1 (proj1 (proj1 (S2 k) Hk))) q Q1). lia. }
    assert (Sg : forall q, (0 < y i (nth q rows 0%nat) -> 0 < z i q) /\ (y i (nth q rows 0%nat) < 0 -> z i q < 0)).
    { intros q. apply std_sign; auto; [apply sqrt_pos|]. intros -> Ev. destruct (Req_dec (y i (nth q rows 0%nat)) 0) as [|N0]; auto. exfalso.
      pose proof (winsor_pos h1 mpv (y i) (nth q rows 0%nat) H1 (ex_intro _ _ (conj (Nat.le_refl _) N0))) as W. apply sqrt_lt_R0 in W. lra. }
    assert (Ys : 0 < y i s) by (unfold y, centred; lra). assert (Ys' : y i s' < 0) by (unfold y, centred; lra).
    destruct (Pos s B ltac:(lra)) as (q & Q1 & Q2). destruct (Pos s' B' ltac:(lra)) as (q' & Q1' & Q2').
    pose proof (proj1 (Sg q)) as Z1. rewrite Q2 in Z1. specialize (Z1 Ys). pose proof (proj2 (Sg q')) as Z2. rewrite Q2' in Z2. specialize (Z2 Ys').
    assert (D : centred true h2 z i q <> 0 \/ exists t, (t <= first_pos mpc + m)%nat /\ centred true h2 z i t <> 0).
    { right. assert (Dec : forall r, (forall t, (t <= r)%nat -> centred true h2 z i t = 0) \/ exists t, (t <= r)%nat /\ centred true h2 z i t <> 0).
      { induction r as [|r [IH|(t & T1 & T2)]].
        - destruct (Req_dec (centred true h2 z i 0%nat) 0); [left; intros t Ht; replace t with 0%nat by lia; auto|right; exists 0%nat; auto].
        - destruct (Req_dec (centred true h2 z i (S r)) 0); [left; intros t Ht; destruct (Nat.eq_dec t (S r)); [subst; auto|apply IH; lia]|right; exists (S r); auto].
        - right. exists t. split; [lia|auto]. }
      destruct (Dec (first_pos mpc + m)%nat) as [A|A]; [|exact A]. exfalso. unfold centred in A.
      pose proof (const_of_centred (decay h2) (z i) _ (decay_bounds h2 H2) A) as C. pose proof (C q Q1). pose proof (C q' Q1'). lra. }
    destruct D as [D|D]; [exists q; auto|exact D]. }
  split.
  - intros i j Hi Hj. destruct (H i Hi) as (_ & _ & Hq). destruct (Hq j Hj) as (Hq1 & _). destruct (Hq1 (Key i Hi) (Key j Hj)) as (_ & _ & Hq2). eauto.
  - intros i Hi. destruct (H i Hi) as (_ & Hm' & _). eauto.
Qed.
