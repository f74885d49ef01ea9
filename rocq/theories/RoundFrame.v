(** * Frames of binary64 numbers: moving means. *)
From Coq Require Import String ZArith Reals Lra Psatz Lia List Bool Arith.
From Flocq Require Import Core BinarySingleNaN.
From Verif Require Import Num Py ListFacts Ewma EwmaTot EwmaPrefix EwmaEquiv EwmaTab Spec SpecEwma EwmaReal EwmaFin EwmaProps EwmaProps2
  Ieee SpecRound RoundStep RoundReal RoundRun RoundLip RoundDecay.
Import ListNotations.
Local Open Scope R_scope.

Lemma fmul_nan x : fmul x B754_nan = B754_nan.
Proof. destruct x; reflexivity. Qed.
Lemma isnum_nan x : isnum x -> is_nan x = false.
Proof. destruct x; try reflexivity. discriminate. Qed.

Section Col.
  Context (L : libm) (h : b64) (M : R).
  Hypothesis HL : accurate L.
  Hypothesis Hh : isnum h.
  Hypothesis HH : / 2 <= fval h <= pw 36.
  Hypothesis HM : pw (-900) <= M <= pw 1000.

  Definition fbeta : b64 := fsub f1 (fsub f1 (m_exp L (fdiv (Bopp (m_ln L (fadd f1 f1))) h))).
  Lemma fbeta_eq : beta_of (N := IEEE L) (Some h) None = Ok fbeta.
  Proof. exact (beta_eq L h Hh HH). Qed.
  Lemma u8 : 8 * uu = pw (-50).
  Proof. unfold uu. change 8 with (pw 3). rewrite <- bpow_plus. reflexivity. Qed.
  Lemma fbeta_ok : isnum fbeta /\ 0 < fval fbeta /\ pw (-40) <= 1 - fval fbeta /\ (1 - decay (fval h)) * (15 / 16) <= 1 - fval fbeta.
  Proof.
    destruct (beta_close L h HL HH) as [N E]. destruct (decay_bounds2 h HH) as (D1 & D2 & D3). fold fbeta in N, E.
    rewrite u8 in E. assert (P1 : pw (-50) <= / 1024 * pw (-40)).
    { change (/ 1024) with (pw (-10)). rewrite <- bpow_plus. apply bpow_le. lia. }
    assert (P2 : 0 < pw (-40)) by apply bpow_gt_0. assert (P3 : pw (-40) <= / 16) by (change (/ 16) with (pw (-4)); apply bpow_le; lia).
    assert (G := Rle_abs (fval fbeta - decay (fval h))). assert (G2 := Rle_abs (- (fval fbeta - decay (fval h)))). rewrite Rabs_Ropp in G2.
    repeat split; [exact N| | |]; lra.
  Qed.

  (** One column. *)
  Lemma fmean mp (x : nat -> b64) k : (forall s, (s <= k)%nat -> isnum (x s) /\ Rabs (fval (x s)) <= M) ->
    isnum (nst (N := IEEE L) fbeta mp None x k) /\
    Rabs (fval (nst (N := IEEE L) fbeta mp None x k) - ewavg (decay (fval h)) (fun s => fval (x s)) k) <= 80 * uu * M / (1 - decay (fval h)) /\
    Rabs (fval (nst (N := IEEE L) fbeta mp None x k)) <= 2 * M.
  Proof.
    intros Hx. destruct fbeta_ok as (N & B0 & B1 & B2). destruct (beta_close L h HL HH) as [_ E]. fold fbeta in E.
    destruct (decay_bounds2 h HH) as (D1 & D2 & D3). assert (P2 : 0 < pw (-40)) by apply bpow_gt_0. pose proof uu_pos as U0.
    assert (M0 : 0 < M) by (pose proof (bpow_gt_0 radix2 (-900)); lra).
    assert (Hp : pow_accurate L fbeta) by (apply HL; [exact N|lra]).
    destruct (frun L fbeta M N B0 B1 Hp HM mp x k Hx) as (R1 & R2 & R3 & R4). split; [exact R1|]. split; [|exact R4].
    set (d := decay (fval h)) in *. set (be := fval fbeta) in *.
    assert (LP := ewavg_lip d be (fun s => fval (x s)) k M ltac:(lra) ltac:(lra) (fun s Hs => proj2 (Hx s Hs))).
    rewrite Rabs_minus_sym in LP. assert (LE : Rabs (d - be) <= 8 * uu) by (rewrite Rabs_minus_sym; exact E).
    replace (fval (nst (N := IEEE L) fbeta mp None x k) - ewavg d (fun s => fval (x s)) k) with
      ((fval (nst (N := IEEE L) fbeta mp None x k) - ewavg be (fun s => fval (x s)) k) + (ewavg be (fun s => fval (x s)) k - ewavg d (fun s => fval (x s)) k)) by ring.
    eapply Rle_trans; [apply (abs_plus _ _ _ _ R2 LP)|]. unfold kappa. fold be.
    assert (A1 : uu * M / (1 - be) <= 16 / 15 * (uu * M / (1 - d))).
    { assert (I : / (1 - be) <= 16 / 15 * / (1 - d)).
      { replace (16 / 15 * / (1 - d)) with (/ ((1 - d) * (15 / 16))) by (field; lra). apply Rinv_le_contravar; [nra|exact B2]. }
      unfold Rdiv at 1. apply Rle_trans with (uu * M * (16 / 15 * / (1 - d))); [apply Rmult_le_compat_l; [nra|exact I]|]. unfold Rdiv. lra. }
    assert (A2 : Rabs (d - be) * (2 * M) / (1 - d) <= 16 * (uu * M / (1 - d))).
    { replace (16 * (uu * M / (1 - d))) with (8 * uu * (2 * M) / (1 - d)) by (field; lra). unfold Rdiv. apply Rmult_le_compat_r; [left; apply Rinv_0_lt_compat; lra|].
      apply Rmult_le_compat_r; lra. }
    replace (80 * uu * M / (1 - d)) with (80 * (uu * M / (1 - d))) by (field; lra).
    assert (K0 : 0 < uu * M / (1 - d)) by (apply Rdiv_lt_0_compat; [nra|lra]). lra.
  Qed.
End Col.

Section Frame.
  Context (L : libm) (b : b64) (mp : nat) (idx : list time) (cols : list string).
  Notation N := (IEEE L).
  Hypothesis Hn : (0 < length cols)%nat.
  Lemma alln_num (u : nat -> nat -> b64) k : (forall j, (j < length cols)%nat -> isnum (u j k)) -> alln (N := N) (length cols) u k = false.
  Proof.
    intros H. unfold alln. destruct (length cols) as [|n]; [lia|]. simpl. change (@nisnan N) with (@is_nan 53 1024).
    rewrite (isnum_nan (u 0%nat k)) by (apply H; lia). reflexivity.
  Qed.
  Lemma alln_fnan (u : nat -> nat -> b64) k : (forall j, (j < length cols)%nat -> u j k = B754_nan) -> alln (N := N) (length cols) u k = true.
  Proof. intros H. apply forallb_forall. intros j Hj. apply in_seq in Hj. rewrite H by lia. reflexivity. Qed.
  Lemma meanf_num (x : nat -> nat -> b64) :
    (forall j k, (j < length cols)%nat -> (k < length idx)%nat -> isnum (nst (N := N) b mp None (x j) k)) ->
    meanf_tot (N := N) b mp None (ftab (N := N) idx cols x) = ptab (N := N) idx cols (fun j k => nst (N := N) b mp None (x j) k) (late mp (length idx)).
  Proof.
    intros Hx. rewrite (@meanf_ftab N).
    assert (E : filter (fun k => negb (alln (N := N) (length cols) (fun j k => msk (N := N) mp k (nst (N := N) b mp None (x j) k)) k)) (seq 0 (length idx)) = late mp (length idx)).
    { apply filter_ext_in. intros k Hk. apply in_seq in Hk. unfold msk. destruct (Nat.leb_spec mp (k + 1)).
      - rewrite alln_num; auto. intros j Hj. destruct (Nat.ltb_spec (k + 1) mp); [lia|]. apply Hx; lia.
      - rewrite alln_fnan; auto. intros j Hj. destruct (Nat.ltb_spec (k + 1) mp); [|lia]. apply fmul_nan. }
    rewrite E. apply ptab_ext. intros j k Hj Hk. unfold late in Hk. apply filter_In in Hk. destruct Hk as [_ Hk].
    apply Nat.leb_le in Hk. unfold msk. destruct (Nat.ltb_spec (k + 1) mp); [lia|reflexivity].
  Qed.
  Lemma center_num (x m : nat -> nat -> b64) : NoDup idx ->
    (forall j k, (j < length cols)%nat -> (k < length idx)%nat -> isnum (fsub (x j k) (m j k))) ->
    fdropna_all (N := N) (falign (N := N) fsub (ftab (N := N) idx cols x) (ptab (N := N) idx cols m (late mp (length idx)))) =
    ptab (N := N) idx cols (fun j k => fsub (x j k) (m j k)) (late mp (length idx)).
  Proof.
    intros Hd Hx. rewrite (@ftab_ptab N). change fsub with (@nsub N) at 1. rewrite (@falign_ptab N); auto; [|intros q Hq; apply in_seq in Hq; lia|intros q Hq; eapply late_lt; eauto].
    rewrite (@dropna_ptab N).
    match goal with |- context [filter ?p ?l] => assert (EK : filter p l = late mp (length idx)) end.
    { apply filter_ext_in. intros k Hk. apply in_seq in Hk. destruct (Nat.leb_spec mp (k + 1)).
      - rewrite alln_num; auto. intros j Hj. rewrite existsb_late by lia. rewrite (proj2 (Nat.leb_le _ _)) by lia. apply Hx; lia.
      - rewrite alln_fnan; auto. intros j Hj. rewrite existsb_late by lia. destruct (Nat.leb_spec mp (k + 1)); [lia|reflexivity]. }
    rewrite EK. apply ptab_ext. intros j k Hj Hk. rewrite (proj2 (existsb_eqb_In _ _)) by auto. reflexivity.
  Qed.
End Frame.

Lemma fcell_ptab L idx cols u a m k j : (a <= k < a + m)%nat -> (j < length cols)%nat ->
  fcell (L := L) (ptab (N := IEEE L) idx cols u (seq a m)) (k - a) j = u j k.
Proof.
  intros Hk Hj. unfold fcell, ptab. cbn [fvals].
  rewrite (nth_map_lt _ _ _ 0%nat) by (rewrite seq_length; lia). rewrite seq_nth by lia. replace (a + (k - a))%nat with k by lia.
  unfold trow. rewrite (nth_map_lt _ _ _ 0%nat) by (rewrite seq_length; lia). rewrite seq_nth by lia. reflexivity.
Qed.
Lemma fframe L (f : frame (N := IEEE L) time) : valid_returns f -> f = ftab (N := IEEE L) (findex f) (fcols f) (fun j k => fcell f k j).
Proof.
  intros Hf. assert (W : length (findex f) = length (fvals f) /\ rows_len (length (fcols f)) (fvals f)) by (destruct Hf as [W _]; exact W).
  destruct W as [W1 W2]. transitivity (ftab (N := IEEE L) (findex f) (fcols f) (fun j k => nth j (nth k (fvals f) []) n0)); [exact (ftab_of f W1 W2)|].
  apply (@ftab_ext (IEEE L)). intros j k Hj Hk. unfold fcell. apply nth_indep. rewrite W1 in Hk.
  assert (E := Forall_nth_lt _ _ [] k W2 Hk). cbv beta in E. rewrite E. exact Hj.
Qed.

Theorem fcenter L f h mp M : accurate L -> isnum h -> / 2 <= fval h <= pw 36 -> pw (-900) <= M <= pw 1000 ->
  valid_returns f -> fvals f <> [] -> numbers f M ->
  exists d m, center (N := IEEE L) f (Some h) mp true = Ok (d, m) /\
    fcols d = fcols f /\ fcols m = fcols f /\
    findex d = skipn (first_pos mp) (findex f) /\ findex m = skipn (first_pos mp) (findex f) /\
    forall k j, (first_pos mp <= k < length (findex f))%nat -> (j < length (fcols f))%nat ->
      let mu := ewavg (decay (fval h)) (fun s => fval (fcell f s j)) k in
      isnum (fcell m (k - first_pos mp) j) /\ isnum (fcell d (k - first_pos mp) j) /\
      Rabs (fval (fcell m (k - first_pos mp) j) - mu) <= pw (-46) * M / (1 - decay (fval h)) /\
      Rabs (fval (fcell d (k - first_pos mp) j) - (fval (fcell f k j) - mu)) <= pw (-46) * M / (1 - decay (fval h)).
Proof.
  intros HL Hh HH HM Hf Hne Hnum.
  assert (Hn : (0 < length (fcols f))%nat) by (destruct Hf as (_ & _ & H); destruct (fcols f); [congruence|simpl; lia]).
  assert (Hd : NoDup (findex f)) by (apply (valid_good f Hf)).
  assert (M0 : 0 < M) by (pose proof (bpow_gt_0 radix2 (-900)); lra). pose proof uu_pos as U0.
  destruct (decay_bounds2 h HH) as (D1 & D2 & D3). set (de := decay (fval h)) in *.
  set (x := fun j k => fcell f k j). set (mm := fun j k => nst (N := IEEE L) (fbeta L h) mp None (x j) k).
  assert (Hmean : forall j k, (j < length (fcols f))%nat -> (k < length (findex f))%nat ->
    isnum (mm j k) /\ Rabs (fval (mm j k) - ewavg de (fun s => fval (x j s)) k) <= 80 * uu * M / (1 - de) /\ Rabs (fval (mm j k)) <= 2 * M).
  { intros j k Hj Hk. apply (fmean L h M HL HH HM mp (x j) k). intros s Hs. apply Hnum; lia. }
  assert (Hsub : forall j k, (j < length (fcols f))%nat -> (k < length (findex f))%nat ->
    isnum (fsub (x j k) (mm j k)) /\ fval (fsub (x j k) (mm j k)) = rd (fval (x j k) - fval (mm j k)) /\ Rabs (fval (x j k) - fval (mm j k)) <= 3 * M).
  { intros j k Hj Hk. destruct (Hmean j k Hj Hk) as (N1 & _ & B1). destruct (Hnum k j Hk Hj) as [N2 B2]. fold (x j k) in N2, B2.
    assert (B3 : Rabs (fval (x j k) - fval (mm j k)) <= 3 * M) by (unfold Rminus; eapply Rle_trans; [apply Rabs_triang|]; rewrite Rabs_Ropp; lra).
    destruct (fsub_val (x j k) (mm j k) N2 N1) as [N3 V3]; [|auto]. apply (big M HM). lra. }
  unfold center. rewrite (@ewma_mean_eq (IEEE L) f (Some h) mp None (fbeta L h) (valid_good f Hf) (fbeta_eq L h Hh HH)).
  destruct (fvals f) eqn:E; [congruence|]. cbn [isnil bind]. clear E.
  rewrite generator2frame_eq by (apply mean_tot_nodup, valid_good; auto).
  change (toframe (fcols f) (mean_tot (N := IEEE L) (fbeta L h) mp None f)) with (meanf_tot (N := IEEE L) (fbeta L h) mp None f).
  assert (EM : meanf_tot (N := IEEE L) (fbeta L h) mp None f = ptab (N := IEEE L) (findex f) (fcols f) mm (late mp (length (findex f)))).
  { rewrite (fframe L f Hf) at 1. rewrite meanf_num; [reflexivity|exact Hn|]. intros j k Hj Hk. apply (Hmean j k Hj Hk). }
  rewrite EM. do 2 eexists. split; [reflexivity|].
  assert (ED : fdropna_all (falign (@nsub (IEEE L)) f (ptab (N := IEEE L) (findex f) (fcols f) mm (late mp (length (findex f))))) =
    ptab (N := IEEE L) (findex f) (fcols f) (fun j k => fsub (x j k) (mm j k)) (late mp (length (findex f)))).
  { rewrite (fframe L f Hf) at 1. apply center_num; auto. intros j k Hj Hk. apply (Hsub j k Hj Hk). }
  rewrite ED. rewrite late_spec. cbn [ptab findex fcols]. unfold first_pos.
  split; [auto|]. split; [auto|]. split; [apply map_tm_skipn|]. split; [apply map_tm_skipn|].
  intros k j Hk Hj. change (ewavg de (fun s => fval (fcell f s j)) k) with (ewavg de (fun s => fval (x j s)) k). set (mu := ewavg de (fun s => fval (x j s)) k).
  rewrite !fcell_ptab by (auto; lia). destruct (Hmean j k Hj ltac:(lia)) as (N1 & E1 & B1). destruct (Hsub j k Hj ltac:(lia)) as (N2 & V2 & B2).
  change (ewavg de (fun s => fval (x j s)) k) with mu in E1.
  assert (P46 : pw (-46) = 128 * uu) by (unfold uu; change 128 with (pw 7); rewrite <- bpow_plus; reflexivity).
  assert (K0 : uu * M <= uu * M / (1 - de)).
  { unfold Rdiv. rewrite <- (Rmult_1_r (uu * M)) at 1. apply Rmult_le_compat_l; [nra|]. rewrite <- Rinv_1. apply Rinv_le_contravar; lra. }
  replace (pw (-46) * M / (1 - de)) with (128 * (uu * M / (1 - de))) by (rewrite P46; field; lra).
  replace (80 * uu * M / (1 - de)) with (80 * (uu * M / (1 - de))) in E1 by (field; lra).
  assert (UM : 0 < uu * M) by nra.
  split; [exact N1|]. split; [exact N2|]. split; [lra|].
  assert (Ed := rd_err (fval (x j k) - fval (mm j k))). rewrite <- V2 in Ed.
  assert (HhM : hh <= uu * M).
  { apply Rle_trans with (uu * pw (-900)); [unfold uu, hh; rewrite <- bpow_plus; apply bpow_le; lia|]. apply Rmult_le_compat_l; lra. }
  assert (Ed2 : Rabs (fval (fsub (x j k) (mm j k)) - (fval (x j k) - fval (mm j k))) <= 4 * (uu * M)).
  { assert (uu * Rabs (fval (x j k) - fval (mm j k)) <= uu * (3 * M)) by (apply Rmult_le_compat_l; lra). lra. }
  change (fval (fcell f k j)) with (fval (x j k)).
  replace (fval (fsub (x j k) (mm j k)) - (fval (x j k) - mu)) with
    ((fval (fsub (x j k) (mm j k)) - (fval (x j k) - fval (mm j k))) + - (fval (mm j k) - mu)) by ring.
  assert (E2 : Rabs (- (fval (mm j k) - mu)) <= 80 * (uu * M / (1 - de))) by (rewrite Rabs_Ropp; exact E1).
  eapply Rle_trans; [apply (abs_plus _ _ _ _ Ed2 E2)|]. lra.
Qed.
