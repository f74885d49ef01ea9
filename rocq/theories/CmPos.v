(** * Positive variances: an asset with a non-zero return by the first forecast (mean = False, no clipping). *)
From Coq Require Import String Reals Lra Psatz List Bool ZArith Arith Lia Sorted.
From Verif Require Import Num Py ListFacts Ewma EwmaTot Spec SpecEwma EwmaReal EwmaProps EwmaProps3 EwmaAny EwmaClosed Combination FromEwmas SpecFrom FromEwmasProps SpecRank SpecActive SpecFromR FromFinite.
Import ListNotations.
Local Open Scope R_scope.

Lemma eweight_last b k : 0 < b -> (1 <= k)%nat -> 0 < eweight b k k < 1.
Proof.
  intros Hb Hk. unfold eweight. rewrite Nat.sub_diag. cbn [pow].
  assert (P : forall m, 0 <= rsum m (fun s => b ^ (k - s))).
  { induction m; cbn [rsum]; [lra|]. pose proof (pow_lt b (k - m) Hb). lra. }
  assert (Hr : 1 < rsum (S k) (fun s => b ^ (k - s))).
  { destruct k as [|k]; [lia|]. cbn [rsum]. rewrite Nat.sub_diag. cbn [pow]. pose proof (P k). pose proof (pow_lt b (S k - k) Hb). lra. }
  split; [apply Rdiv_lt_0_compat; lra|]. apply Rmult_lt_reg_r with (rsum (S k) (fun s => b ^ (k - s))); [lra|].
  unfold Rdiv. rewrite Rmult_assoc, Rinv_l by lra. lra.
Qed.
Lemma winsor_pos h mp y k : 0 < h -> (exists s, (s <= k)%nat /\ y s <> 0) -> 0 < winsor_var h mp None y k.
Proof.
  intros Hh. assert (G : forall k, 0 <= winsor_var h mp None y k).
  { induction k0 as [|k0 IH]; cbn [winsor_var]; [apply pow2_ge_0|].
    pose proof (eweight_last (decay h) (S k0) (proj1 (decay_bounds h Hh)) ltac:(lia)) as Hw. pose proof (pow2_ge_0 (y (S k0))). nra. }
  induction k as [|k IH]; intros (s & Hs & Hy); cbn [winsor_var].
  - replace s with 0%nat in Hy by lia. pose proof (pow2_ge_0 (y 0%nat)). pose proof (pow_nonzero (y 0%nat) 2 Hy). lra.
  - pose proof (eweight_last (decay h) (S k) (proj1 (decay_bounds h Hh)) ltac:(lia)) as Hw. pose proof (pow2_ge_0 (y (S k))) as H2.
    destruct (Req_dec (y (S k)) 0) as [E|E].
    + assert (0 < winsor_var h mp None y k). { apply IH. exists s. split; auto. destruct (Nat.eq_dec s (S k)); [subst; tauto|lia]. } nra.
    + pose proof (pow_nonzero (y (S k)) 2 E). pose proof (G k). assert (0 < y (S k) ^ 2) by lra. nra.
Qed.
Lemma sorted_nth_ge l a : StronglySorted lt l -> (forall k, In k l -> (a <= k)%nat) -> forall r, (r < length l)%nat -> (a + r <= nth r l 0)%nat.
Proof.
  intros S. revert a. induction S as [|b l S IH F]; intros a H r Hr; [simpl in Hr; lia|]. destruct r as [|r]; simpl.
  - pose proof (H b (or_introl eq_refl)). lia.
  - simpl in Hr. rewrite Forall_forall in F. specialize (IH (Datatypes.S a)). replace (a + Datatypes.S r)%nat with (Datatypes.S a + r)%nat by lia. apply IH; [|lia].
    intros k Hk. pose proof (F k Hk). pose proof (H b (or_introl eq_refl)). lia.
Qed.

Lemma positive_variances (returns : frame (N := XR) time) x pairs mpv mpc :
  valid_returns returns -> returns_are true returns x -> positive_halflives pairs ->
  active x (length (fcols returns)) mpv mpc ->
  forall p outs o, In p pairs -> iterated_ewma (pair_params (N := XR) mpv mpc None false p) returns = Ok outs -> In o outs ->
  forall i, (i < length (fcols returns))%nat -> 0 < xval (cov_at o i i).
Proof.
  intros Hv Hx Hp Ha p outs o Hin E Ho i Hi.
  assert (Hcl : clip_is None None) by (left; auto).
  destruct (finite_items returns x pairs mpv mpc None None Hv Hx Hp Hcl Ha p outs o Hin E Ho) as [Hf _].
  destruct (pair_settings pairs mpv mpc None None false Hp Hcl p Hin) as (h1 & h2 & HS & Hh).
  destruct (covariance_structure _ _ _ _ _ _ _ _ HS Hv Hx outs o E Ho) as (_ & Hd & _). destruct (Hd i Hi) as (v & Ev & Hv0 & Hcv).
  destruct (Hf i i Hi Hi) as (c & Ec). destruct Hcv as [Hn|Hcv]; [congruence|]. rewrite Hcv. cbn [xval].
  destruct (run_total _ _ _ _ _ _ _ _ HS Hv Hx) as (rows & S1 & S2 & R1 & R2).
  assert (Hne : rows <> []) by (intros E0; assert (X : Ok outs = Raise IndexError) by (etransitivity; [symmetry; exact E|exact (R1 E0)]); discriminate). destruct (R2 Hne) as (outs' & E' & Et & H).
  assert (X : Ok outs = Ok outs') by (etransitivity; [symmetry; exact E|exact E']). injection X as <-. apply In_nth_error in Ho. destruct Ho as (z & Hz). destruct (H z o Hz i Hi) as (Hvol & _).
  cbn [pair_params use_mean min_periods_vola min_periods_cov] in *. unfold centred in *.
  rewrite Ev in Hvol. injection Hvol as ->. set (k := nth _ _ _) in *.
  assert (Hz2 : (z < length outs)%nat) by (apply nth_error_Some; congruence).
  rewrite <- (map_length itime), Et, map_length, skipn_length in Hz2.
  assert (Hk : (first_pos mpv + (first_pos mpc + z) <= k)%nat).
  { apply sorted_nth_ge; auto. - intros kk Hkk. apply S2 in Hkk. lia. - lia. }
  assert (0 < sqrt (winsor_var h1 mpv None (fun k => x i k) k)).
  { apply sqrt_lt_R0. apply winsor_pos; auto. destruct (Ha i Hi) as (s & Hs1 & Hs2). exists s. split; auto. lia. }
  nra.
Qed.
