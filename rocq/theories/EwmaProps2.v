(** * Further lemmas behind the property theorems about ewma.py. *)
From Coq Require Import String Reals Lra Psatz List Bool ZArith Arith Lia Permutation.
From Verif Require Import Num Py ListFacts Ewma EwmaTot EwmaPrefix EwmaEquiv XRFacts Spec SpecEwma EwmaReal EwmaTab EwmaFin EwmaProps.
Import ListNotations.
Local Open Scope R_scope.

Lemma map_tm_skipn idx a : map (tm idx) (seq a (length idx - a)) = skipn a idx.
Proof.
  apply (list_eq_nth 0%Z).
  - rewrite map_length, seq_length, skipn_length; auto.
  - intros k Hk. rewrite map_length, seq_length in Hk.
    rewrite (nth_map_lt _ _ _ 0%nat) by (rewrite seq_length; auto). rewrite seq_nth by auto.
    unfold tm. clear - Hk. revert a Hk. induction idx as [|t idx IH]; intros a Hk; [simpl in Hk; lia|].
    destruct a; auto. simpl skipn. simpl in Hk. rewrite <- IH by lia. reflexivity.
Qed.

Lemma returns_are_false f x : valid_returns f -> returns_are false f x -> f = ffin (findex f) (fcols f) x.
Proof.
  intros Hf Hx. 
  pose (P := mkParams (N:=XR) None None 0 0 false None None None false).
  change false with (nan_to_num P) in Hx. rewrite <- (prep_returns P f x Hf Hx). reflexivity.
Qed.

Lemma ptab_entry idx cols u a m k j : (a <= k < a + m)%nat -> (j < length cols)%nat ->
  entry (ptab idx cols u (seq a m)) (k - a) j = u j k.
Proof.
  intros Hk Hj. unfold entry, ptab. cbn [fvals].
  rewrite (nth_map_lt _ _ _ 0%nat) by (rewrite seq_length; lia).
  rewrite seq_nth by lia. replace (a + (k - a))%nat with k by lia. apply trow_nth; auto.
Qed.

Lemma clip_truthy o rc : clip_is o rc -> truthy o = option_map Fin rc.
Proof.
  unfold clip_is. destruct rc as [c|].
  - intros [-> H]. cbn. destruct (Req_EM_T c 0); [lra|auto].
  - intros [->| ->]; cbn; auto. destruct (Req_EM_T 0 0); [auto|lra].
Qed.

(** The volatility estimator on finite data. *)
Lemma volatility_explicit f x h mp o rc :
  valid_returns f -> returns_are false f x -> fvals f <> [] -> 0 < h -> clip_is o rc ->
  exists v, volatility f (Some (Fin h)) mp o = Ok v /\ fcols v = fcols f /\
    findex v = skipn (first_pos mp) (findex f) /\
    (forall k j, (first_pos mp <= k < length (findex f))%nat -> (j < length (fcols f))%nat ->
       entry v (k - first_pos mp) j = Fin (rvol (decay h) mp rc (x j) k)).
Proof.
  intros Hf Hx Hne Hh Hc.
  rewrite (volatility_eq f (Some (Fin h)) mp o (Fin (decay h)) (valid_good f Hf) (beta_of_fin h Hh)).
  destruct (fvals f) eqn:E; [congruence|]. cbn [isnil].
  rewrite (returns_are_false f x Hf Hx).
  assert (Hn : (0 < length (fcols f))%nat) by (destruct Hf as (_ & _ & H); destruct (fcols f); [congruence|simpl; lia]).
  rewrite (vola_ffin (decay h) mp o rc) by (auto using decay_bounds, clip_truthy).
  eexists. split; [reflexivity|]. cbn [ffin ftab findex fcols].
  rewrite late_spec. unfold first_pos. split; [reflexivity|]. split; [apply map_tm_skipn|].
  intros k j Hk Hj. apply ptab_entry; auto. lia.
Qed.

Lemma rvol_sq b mp rc u k : 0 < b < 1 -> okc (sqo rc) ->
  rvol b mp rc u k * rvol b mp rc u k = rst b mp (sqo rc) (fun s => u s * u s) k.
Proof. intros Hb Hc. apply sqrt_sqrt. apply rst_nonneg; auto. intros; nra. Qed.

Lemma okc_clip o rc : clip_is o rc -> okc (sqo rc).
Proof. intros H. eapply okc_sqo, clip_truthy; eauto. Qed.

Lemma ewavg_sq_pow b (u : nat -> R) k : ewavg b (fun s => u s * u s) k = ewavg b (fun s => u s ^ 2) k.
Proof. unfold ewavg. f_equal. apply rsum_ext; intros; simpl; ring. Qed.

(** C02 *)
Lemma volatility_closed f x h mp :
  valid_returns f -> returns_are false f x -> fvals f <> [] -> 0 < h ->
  exists v, volatility f (Some (Fin h)) mp None = Ok v /\ fcols v = fcols f /\
    findex v = skipn (first_pos mp) (findex f) /\
    (forall k j, (first_pos mp <= k < length (findex f))%nat -> (j < length (fcols f))%nat ->
       entry v (k - first_pos mp) j = Fin (sqrt (ewavg (decay h) (fun s => x j s ^ 2) k))).
Proof.
  intros Hf Hx Hne Hh.
  destruct (volatility_explicit f x h mp None None Hf Hx Hne Hh) as (v & H1 & H2 & H3 & H4); [left; auto|].
  exists v; repeat split; auto. intros k j Hk Hj. rewrite H4 by auto. unfold rvol. simpl sqo.
  rewrite rst_closed by (apply decay_bounds; auto). rewrite ewavg_sq_pow. reflexivity.
Qed.

(** C12 *)
Lemma center_explicit f x h mp :
  valid_returns f -> returns_are false f x -> fvals f <> [] -> 0 < h ->
  exists d m, center f (Some (Fin h)) mp true = Ok (d, m) /\
    fcols d = fcols f /\ fcols m = fcols f /\
    findex d = skipn (first_pos mp) (findex f) /\ findex m = skipn (first_pos mp) (findex f) /\
    (forall k j, (first_pos mp <= k < length (findex f))%nat -> (j < length (fcols f))%nat ->
       entry m (k - first_pos mp) j = Fin (ewavg (decay h) (x j) k) /\
       entry d (k - first_pos mp) j = Fin (x j k - ewavg (decay h) (x j) k)).
Proof.
  intros Hf Hx Hne Hh.
  assert (Hn : (0 < length (fcols f))%nat) by (destruct Hf as (_ & _ & H); destruct (fcols f); [congruence|simpl; lia]).
  assert (Hd : NoDup (findex f)) by (apply (valid_good f Hf)).
  unfold center.
  rewrite (ewma_mean_eq f (Some (Fin h)) mp None (Fin (decay h)) (valid_good f Hf) (beta_of_fin h Hh)).
  destruct (fvals f) eqn:E; [congruence|]. cbn [isnil bind].
  rewrite generator2frame_eq by (apply mean_tot_nodup, valid_good; auto).
  change (toframe (fcols f) (mean_tot (Fin (decay h)) mp None f)) with (meanf_tot (Fin (decay h)) mp None f).
  rewrite (returns_are_false f x Hf Hx).
  rewrite (meanf_ffin (decay h) mp None None) by (auto using decay_bounds).
  cbn [ffin ftab findex fcols].
  do 2 eexists. split; [reflexivity|].
  fold (ffin (findex f) (fcols f) x).
  assert (ED : fdropna_all (falign nsub (ffin (findex f) (fcols f) x)
      (ptab (findex f) (fcols f) (fun j k => Fin (rst (decay h) mp None (x j) k)) (late mp (length (findex f))))) =
      ptab (findex f) (fcols f) (fun j k => Fin (x j k - ewavg (decay h) (x j) k)) (late mp (length (findex f)))).
  { unfold ffin. rewrite ftab_ptab, falign_ptab; auto; [|intros q Hq; apply in_seq in Hq; lia|intros q Hq; eapply late_lt; eauto].
    rewrite dropna_ptab.
    match goal with |- context [filter ?p ?l] => assert (EK : filter p l = late mp (length (findex f))) end.
    { apply filter_ext_in. intros k Hk. apply in_seq in Hk. destruct (Nat.leb_spec mp (k + 1)).
      - rewrite (alln_ext _ _ (fun j k => Fin (x j k - rst (decay h) mp None (x j) k))).
        + rewrite alln_fin; auto.
        + intros j Hj. rewrite existsb_late by lia. rewrite (proj2 (Nat.leb_le _ _)) by lia. reflexivity.
      - rewrite alln_nan; auto. intros j Hj. rewrite existsb_late by lia.
        destruct (Nat.leb_spec mp (k + 1)); [lia|reflexivity]. }
    rewrite EK. apply ptab_ext. intros j k Hj Hk. rewrite (proj2 (existsb_eqb_In _ _)) by auto.
    rewrite rst_closed by (apply decay_bounds; auto). reflexivity. }
  rewrite ED. rewrite late_spec. cbn [ptab findex fcols]. unfold first_pos.
  split; [auto|]. split; [auto|]. split; [apply map_tm_skipn|]. split; [apply map_tm_skipn|].
  intros k j Hk Hj.
  split; rewrite ptab_entry by (auto; lia); [|reflexivity].
  rewrite rst_closed by (apply decay_bounds; auto). reflexivity.
Qed.

(** C09 *)
Lemma winsor_step f x h mp c v k j a b' :
  valid_returns f -> returns_are false f x -> 0 < h -> c <> 0 ->
  volatility f (Some (Fin h)) mp (Some (Fin c)) = Ok v ->
  (mp <= k)%nat -> (S k < length (findex f))%nat -> (j < length (fcols f))%nat ->
  entry v (k - first_pos mp) j = Fin a -> entry v (S k - first_pos mp) j = Fin b' ->
  let w := eweight (decay h) (S k) (S k) in
  0 < w < 1 /\ 0 <= a /\ 0 <= b' /\
  (1 - w) * a ^ 2 <= b' ^ 2 <= (1 + w * (c ^ 2 - 1)) * a ^ 2 /\
  (Rabs (x j (S k)) <= Rabs c * a -> b' ^ 2 = (1 - w) * a ^ 2 + w * x j (S k) ^ 2).
Proof.
  intros Hf Hx Hh Hc HV Hmp Hk Hj Ha Hb w.
  assert (Hne : fvals f <> []).
  { destruct Hf as ((HL & _) & _). destruct (fvals f); [simpl in HL; lia|discriminate]. }
  pose proof (decay_bounds h Hh) as Hd.
  destruct (volatility_explicit f x h mp (Some (Fin c)) (Some c) Hf Hx Hne Hh (conj eq_refl Hc)) as (v' & H1 & _ & _ & H4).
  rewrite HV in H1. inversion H1; subst v'.
  unfold first_pos in *.
  rewrite H4 in Ha by (try lia). rewrite H4 in Hb by (try lia). inversion Ha as [Ea]; inversion Hb as [Eb].
  assert (Ew : w = wnew (decay h) (S k)).
  { unfold w, eweight. rewrite Nat.sub_diag, pow_O, wnew_etot by auto. unfold Rdiv; ring. }
  assert (Hcc : 0 < c * c) by nra.
  pose proof (rst_step_bounds (decay h) Hd mp (c * c) (fun s => x j s * x j s) k Hcc ltac:(intros; nra) Hmp) as HB.
  cbv zeta in HB. rewrite <- Ew in HB.
  pose proof (rvol_sq (decay h) mp (Some c) (x j) k Hd Hcc) as Sa.
  pose proof (rvol_sq (decay h) mp (Some c) (x j) (S k) Hd Hcc) as Sb.
  simpl sqo in Sa, Sb. rewrite <- Sa, <- Sb in HB. rewrite ?Ea, ?Eb in *.
  pose proof (rvol_nonneg (decay h) mp (Some c) (x j) k) as Na.
  pose proof (rvol_nonneg (decay h) mp (Some c) (x j) (S k)) as Nb. rewrite Ea in Na. rewrite Eb in Nb.
  destruct HB as [HB1 HB2].
  split; [rewrite Ew; split; [apply wnew_pos; auto|apply wnew_lt1; auto; lia]|].
  split; [auto|]. split; [auto|]. split.
  - replace (a ^ 2) with (a * a) by ring. replace (b' ^ 2) with (b' * b') by ring. replace (c ^ 2) with (c * c) by ring. lra.
  - intros Hle. replace (b' ^ 2) with (b' * b') by ring. rewrite HB2; [ring|].
    assert (Rabs (x j (S k)) * Rabs (x j (S k)) <= (Rabs c * a) * (Rabs c * a)).
    { apply Rmult_le_compat; auto using Rabs_pos. }
    replace ((Rabs c * a) * (Rabs c * a)) with ((Rabs c * Rabs c) * (a * a)) in H by ring.
    rewrite <- !Rabs_mult, !Rabs_pos_eq in H by nra. exact H.
Qed.

(** C10: the trap, for the estimator *)
Lemma winsor_trap f x h mp c v k j :
  valid_returns f -> returns_are false f x -> 0 < h -> c <> 0 ->
  volatility f (Some (Fin h)) mp (Some (Fin c)) = Ok v ->
  (j < length (fcols f))%nat -> (first_pos mp <= k < length (findex f))%nat ->
  (forall s, (s <= mp)%nat -> x j s = 0) ->
  entry v (k - first_pos mp) j = Fin 0.
Proof.
  intros Hf Hx Hh Hc HV Hj Hk Hz.
  assert (Hne : fvals f <> []).
  { destruct Hf as ((HL & _) & _). destruct (fvals f); [simpl in HL; lia|discriminate]. }
  destruct (volatility_explicit f x h mp (Some (Fin c)) (Some c) Hf Hx Hne Hh (conj eq_refl Hc)) as (v' & H1 & _ & _ & H4).
  rewrite HV in H1. inversion H1; subst v'. rewrite H4 by auto. f_equal. unfold rvol. simpl sqo.
  rewrite rst_trap; [apply sqrt_0|apply decay_bounds; auto| | |]; try nra.
  - intros s Hs. rewrite Hz by auto. ring.
  - intros; nra.
Qed.

Lemma unclipped_positive f x h mp v k j :
  valid_returns f -> returns_are false f x -> 0 < h ->
  volatility f (Some (Fin h)) mp None = Ok v ->
  (j < length (fcols f))%nat -> (first_pos mp <= k < length (findex f))%nat ->
  (exists s, (s <= k)%nat /\ x j s <> 0) ->
  exists a, entry v (k - first_pos mp) j = Fin a /\ 0 < a.
Proof.
  intros Hf Hx Hh HV Hj Hk (s & Hs & Hxs).
  assert (Hne : fvals f <> []).
  { destruct Hf as ((HL & _) & _). destruct (fvals f); [simpl in HL; lia|discriminate]. }
  destruct (volatility_explicit f x h mp None None Hf Hx Hne Hh (or_introl eq_refl)) as (v' & H1 & _ & _ & H4).
  pose proof (eq_trans (eq_sym HV) H1) as H2. injection H2 as <-. rewrite H4 by auto. eexists; split; [reflexivity|].
  destruct (rvol_nonneg (decay h) mp None (x j) k) as [H|H]; auto. exfalso. apply Hxs.
  symmetry in H. exact (proj1 (rvol_zero_none _ _ _ _ (decay_bounds h Hh)) H s Hs).
Qed.
