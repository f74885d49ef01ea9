(** * Further lemmas behind the property theorems about ewma.py (schedule, NaN patterns, clip, ...). *)
From Coq Require Import String Reals Lra Psatz List Bool ZArith Arith Lia Permutation Sorting.Sorted.
From Verif Require Import Num Py ListFacts Ewma EwmaTot EwmaPrefix EwmaEquiv XRFacts Spec SpecEwma EwmaReal EwmaTab EwmaFin EwmaProps EwmaProps2.
Import ListNotations.
Local Open Scope R_scope.

(** ** C03 *)
Lemma ewavg_const b c k : 0 < b < 1 -> ewavg b (fun _ => c) k = c.
Proof.
  intros Hb. rewrite ewavg_weights by auto.
  rewrite (rsum_ext _ _ (fun s => c * eweight b k s)) by (intros; ring).
  rewrite rsum_scal, eweight_sum by auto. ring.
Qed.

Lemma rpower_half h : 0 < h -> forall d, INR d = h -> decay h ^ d = / 2.
Proof.
  intros Hh d E. rewrite decay_pow by auto. rewrite E. replace (h / h) with 1 by (field; lra).
  rewrite Rpower_Ropp, Rpower_1; lra.
Qed.

Lemma halflife_weights h : 0 < h ->
  exists W : nat -> nat -> R,
    (forall k s, (s <= k)%nat -> 0 < W k s) /\
    (forall k s, (s < k)%nat -> W k s < W k (S s)) /\
    (forall k, rsum (S k) (W k) = 1) /\
    (forall k s d, (s + d <= k)%nat -> W k s = W k (s + d)%nat * Rpower 2 (- (INR d / h))) /\
    (forall k s d, (s + d <= k)%nat -> INR d = h -> W k s = W k (s + d)%nat / 2) /\
    (forall f x mp, valid_returns f -> returns_are false f x -> fvals f <> [] ->
       (exists v, volatility f (Some (Fin h)) mp None = Ok v /\
          forall k j, (first_pos mp <= k < length (findex f))%nat -> (j < length (fcols f))%nat ->
            entry v (k - first_pos mp) j = Fin (sqrt (rsum (S k) (fun s => W k s * x j s ^ 2)))) /\
       (exists d m, center f (Some (Fin h)) mp true = Ok (d, m) /\
          forall k j, (first_pos mp <= k < length (findex f))%nat -> (j < length (fcols f))%nat ->
            entry m (k - first_pos mp) j = Fin (rsum (S k) (fun s => W k s * x j s)))).
Proof.
  intros Hh. pose proof (decay_bounds h Hh) as Hb. exists (eweight (decay h)).
  split; [intros; apply eweight_pos; auto|].
  split.
  { intros k s Hs. pose proof (eweight_age (decay h) k s 1 ltac:(lia)) as E.
    replace (s + 1)%nat with (S s) in E by lia. rewrite E, pow_1.
    pose proof (eweight_pos (decay h) Hb k (S s)). nra. }
  split; [intros; apply eweight_sum; auto|].
  split.
  { intros k s d Hs. rewrite <- decay_pow by auto. apply eweight_age; auto. }
  split.
  { intros k s d Hs E. rewrite (eweight_age (decay h) k s d) by auto.
    rewrite (rpower_half h Hh d E). reflexivity. }
  intros f x mp Hf Hx Hne. split.
  - destruct (volatility_closed f x h mp Hf Hx Hne Hh) as (v & H1 & _ & _ & H4). exists v; split; auto.
    intros k j Hk Hj. rewrite H4 by auto. rewrite ewavg_weights by auto. reflexivity.
  - destruct (center_explicit f x h mp Hf Hx Hne Hh) as (d & m & H1 & _ & _ & _ & _ & H4). exists d, m; split; auto.
    intros k j Hk Hj. destruct (H4 k j Hk Hj) as [E _]. rewrite E. rewrite ewavg_weights by auto. reflexivity.
Qed.

Lemma constant_reproduced h f mp c : 0 < h -> valid_returns f -> fvals f <> [] ->
  returns_are false f (fun j _ => c j) ->
  exists v d m, volatility f (Some (Fin h)) mp None = Ok v /\ center f (Some (Fin h)) mp true = Ok (d, m) /\
    forall k j, (first_pos mp <= k < length (findex f))%nat -> (j < length (fcols f))%nat ->
      entry v (k - first_pos mp) j = Fin (Rabs (c j)) /\
      entry m (k - first_pos mp) j = Fin (c j) /\ entry d (k - first_pos mp) j = Fin 0.
Proof.
  intros Hh Hf Hne Hx. pose proof (decay_bounds h Hh) as Hb.
  destruct (volatility_closed f _ h mp Hf Hx Hne Hh) as (v & V1 & _ & _ & V4).
  destruct (center_explicit f _ h mp Hf Hx Hne Hh) as (d & m & H1 & _ & _ & _ & _ & H4).
  exists v, d, m. split; auto. split; auto. intros k j Hk Hj. rewrite V4 by auto.
  destruct (H4 k j Hk Hj) as [E1 E2]. rewrite E1, E2. rewrite !ewavg_const by auto.
  split; [f_equal|split; f_equal; ring]. rewrite <- sqrt_Rsqr_abs. f_equal. unfold Rsqr; ring.
Qed.

(** ** Positions *)
Lemma late_first mp T : late mp T = seq (first_pos mp) (T - first_pos mp).
Proof. apply late_spec. Qed.

Lemma Sorted_filter_seq (p : nat -> bool) a n : StronglySorted lt (filter p (seq a n)).
Proof.
  revert a; induction n; simpl; intros a; [constructor|].
  destruct (p a); auto. constructor; auto. apply Forall_forall. intros k Hk. apply filter_In in Hk.
  destruct Hk as [Hk _]. apply in_seq in Hk. lia.
Qed.
Lemma sorted_nth_lt l i j : StronglySorted lt l -> (i < j < length l)%nat -> (nth i l 0 < nth j l 0)%nat.
Proof.
  revert i j; induction l as [|a l IH]; simpl; intros i j HS Hij; [lia|].
  inversion HS as [|a' l' HS' HF]; subst. destruct j; [lia|]. destruct i.
  - rewrite Forall_forall in HF. apply HF, nth_In. lia.
  - apply IH; auto. lia.
Qed.
Lemma sorted_nth_le l i k : StronglySorted lt l -> (i < length l)%nat -> In k l -> (k <= nth i l 0)%nat ->
  exists s, (s <= i)%nat /\ nth s l 0%nat = k.
Proof.
  intros HS Hi Hk Hle. apply (In_nth _ _ 0%nat) in Hk. destruct Hk as (s & Hs & E). exists s; split; auto.
  destruct (le_lt_dec s i); auto. pose proof (sorted_nth_lt l i s HS ltac:(lia)). lia.
Qed.

Lemma increasing_tm idx ks : increasing idx -> StronglySorted lt ks -> (forall k, In k ks -> (k < length idx)%nat) ->
  increasing (map (tm idx) ks).
Proof.
  intros Hi HS Hk.
  assert (HM : forall a b, (a < b)%nat -> (b < length idx)%nat -> (tm idx a < tm idx b)%Z).
  { clear - Hi. induction idx as [|t idx IH]; simpl; intros a b Hab Hb; [lia|].
    destruct b; [lia|]. destruct a.
    - unfold tm; simpl. pose proof (increasing_all_lt _ _ Hi) as HF. rewrite Forall_forall in HF.
      apply HF, nth_In. lia.
    - apply IH; try lia. eapply increasing_tail; eauto. }
  induction ks as [|a [|b ks] IH]; simpl; auto. 
  inversion HS as [|a' l' HS' HF]; subst. split.
  - apply HM; [rewrite Forall_forall in HF; apply HF; simpl; auto|apply Hk; simpl; auto].
  - apply IH; auto. intros k H; apply Hk; simpl in *; auto.
Qed.

Section Out.
  Variables (P : params (N := XR)) (f : frame time) (x : nat -> nat -> R) (hv hc h1 h2 : R) (rc : option R).
  Hypothesis HS : settings P hv hc h1 h2 rc.
  Hypothesis Hf : valid_returns f.
  Hypothesis Hx : returns_are (nan_to_num P) f x.

  Let n := length (fcols f).
  Let T := length (findex f).
  Let K := kp P hv h1 rc (findex f) (fcols f) x.
  Let HU := settings_usable _ _ _ _ _ _ HS.
  Let y := py P h1 x.
  Let fp := first_pos (min_periods_vola P).
  Let fc := first_pos (min_periods_cov P).

  Lemma y_centred j k : y j k = centred (use_mean P) h1 x j k.
  Proof. reflexivity. Qed.

  Lemma K_sorted : StronglySorted lt K.
  Proof. apply Sorted_filter_seq. Qed.
  Lemma K_lt k : In k K -> (fp <= k < T)%nat.
  Proof.
    intros H. apply filter_In in H. destruct H as [H1 H2]. apply in_seq in H1. apply andb_true_iff in H2.
    destruct H2 as [H2 _]. apply Nat.leb_le in H2. unfold fp, first_pos, T. lia.
  Qed.

  Lemma K_short : (T <= fp)%nat -> K = [].
  Proof.
    intros H. destruct K as [|k K'] eqn:E; auto. pose proof (K_lt k) as H1. rewrite E in H1.
    specialize (H1 (or_introl eq_refl)). lia.
  Qed.

  Lemma pv_pos j s k : (s <= fp)%nat -> y j s <> 0 -> (fp <= k)%nat -> 0 < pv P hv h1 rc x j k.
  Proof.
    intros Hs Hy Hk. unfold pv, rvol. apply sqrt_lt_R0. fold y.
    pose proof (hb_v P hv hc h1 h2 rc HU) as Hb.
    assert (Hok : okc (sqo rc)) by (eapply okc_sqo, (us_clip _ _ _ _ _ _ HU)).
    replace k with (fp + (k - fp))%nat by lia. apply rst_pos_stays; auto; [intros; nra|].
    assert (E : rst (decay hv) (min_periods_vola P) (sqo rc) (fun s => y j s * y j s) fp = ewavg (decay hv) (fun s => y j s * y j s) fp).
    { destruct (sqo rc); [apply rst_early; auto; unfold fp, first_pos; lia|apply rst_closed; auto]. }
    rewrite E. assert (H0 : 0 <= ewavg (decay hv) (fun s => y j s * y j s) fp) by (apply ewavg_nonneg; auto; intros; nra).
    destruct H0 as [H0|H0]; auto. exfalso. symmetry in H0.
    apply ewavg_zero_iff with (s := s) in H0; auto; [apply Rmult_integral in H0; tauto|]. intros; nra.
  Qed.

  Lemma K_full j s : (j < n)%nat -> (s <= fp)%nat -> y j s <> 0 -> K = seq fp (T - fp).
  Proof.
    intros Hj Hs Hy. unfold fp. rewrite <- late_first. apply filter_ext_in. intros k Hk. apply in_seq in Hk.
    destruct (min_periods_vola P <=? k + 1)%nat eqn:E; auto. cbn [andb]. apply existsb_exists. exists j.
    split; [apply in_seq; fold n; lia|]. unfold dfb. fold y.
    pose proof (pv_pos j s k Hs Hy) as Hp. apply Nat.leb_le in E. unfold fp, first_pos in Hp.
    specialize (Hp ltac:(lia)). destruct (Req_EM_T (pv P hv h1 rc x j k) 0); [lra|auto].
  Qed.

  (** *** C04 *)
  Lemma schedule_short : (T < Nat.max 1 (min_periods_vola P))%nat -> iterated_ewma P f = Raise IndexError.
  Proof.
    intros H. rewrite (iterated_explicit P f x hv hc h1 h2 rc HS Hf Hx). cbv zeta. fold K.
    rewrite K_short; auto. unfold fp, first_pos. lia.
  Qed.

  Lemma schedule_full : (Nat.max 1 (min_periods_vola P) <= T)%nat ->
    (exists j s, (j < n)%nat /\ (s <= fp)%nat /\ centred (use_mean P) h1 x j s <> 0) ->
    exists outs, iterated_ewma P f = Ok outs /\ map itime outs = skipn (fp + fc) (findex f).
  Proof.
    intros HT (j & s & Hj & Hs & Hy). rewrite (iterated_explicit P f x hv hc h1 h2 rc HS Hf Hx). cbv zeta. fold K.
    pose proof (K_full j s Hj Hs Hy) as E. rewrite E.
    destruct (T - fp)%nat as [|m] eqn:Em; [unfold fp, first_pos in *; lia|]. cbn [isnil seq].
    eexists; split; [reflexivity|]. rewrite map_map. cbn [length]. rewrite seq_length, <- Em.
    rewrite late_first. fold fc. rewrite <- map_tm_skipn. fold T.
    apply (list_eq_nth 0%Z).
    - rewrite !map_length, !seq_length. lia.
    - intros k Hk. rewrite map_length, seq_length in Hk.
      rewrite !(nth_map_lt _ _ _ 0%nat) by (rewrite seq_length; lia). rewrite !seq_nth by lia.
      unfold pitem. cbn [itime]. unfold kpos. fold K. rewrite E. rewrite seq_nth by lia. f_equal. lia.
  Qed.

  Lemma schedule_any outs : iterated_ewma P f = Ok outs ->
    increasing (map itime outs) /\ Forall (fun t => In t (skipn (fp + fc) (findex f))) (map itime outs).
  Proof.
    rewrite (iterated_explicit P f x hv hc h1 h2 rc HS Hf Hx). cbv zeta. fold K.
    destruct (isnil K); [discriminate|]. intros E; inversion E; subst outs; clear E.
    rewrite map_map. 
    assert (EM : map (fun i => itime (pitem P hv hc h1 h2 rc (findex f) (fcols f) x i)) (late (min_periods_cov P) (length K)) =
                 map (tm (findex f)) (map (fun i => nth i K 0%nat) (late (min_periods_cov P) (length K)))).
    { rewrite map_map. reflexivity. }
    rewrite EM.
    assert (HSort : StronglySorted lt (map (fun i => nth i K 0%nat) (late (min_periods_cov P) (length K)))).
    { rewrite late_first. fold fc.
      assert (G : forall m a, (a + m <= length K)%nat -> StronglySorted lt (map (fun i => nth i K 0%nat) (seq a m))).
      { induction m; simpl; intros a Ha; constructor; auto; [apply IHm; lia|]. apply Forall_forall. intros k Hk.
        apply in_map_iff in Hk. destruct Hk as (i & <- & Hi). apply in_seq in Hi.
        apply sorted_nth_lt; [apply K_sorted|lia]. }
      destruct (le_lt_dec fc (length K)); [apply G; lia|].
      replace (length K - fc)%nat with 0%nat by lia. constructor. }
    assert (HIn : forall i, In i (late (min_periods_cov P) (length K)) -> (fc <= i < length K)%nat).
    { rewrite late_first. fold fc. intros i Hi. apply in_seq in Hi. lia. }
    split.
    - apply increasing_tm; [apply Hf|auto|]. intros k Hk. apply in_map_iff in Hk. destruct Hk as (i & <- & Hi).
      apply K_lt. apply nth_In. apply HIn; auto.
    - rewrite map_map. apply Forall_forall. intros t Ht. apply in_map_iff in Ht. destruct Ht as (i & <- & Hi).
      apply HIn in Hi. rewrite <- map_tm_skipn. apply in_map. apply in_seq.
      assert (G : forall i, (i < length K)%nat -> (fp + i <= nth i K 0 < T)%nat).
      { induction i0; intros Hl.
        - pose proof (K_lt (nth 0 K 0%nat) (nth_In _ _ Hl)). lia.
        - pose proof (sorted_nth_lt K i0 (S i0) K_sorted ltac:(lia)). specialize (IHi0 ltac:(lia)).
          pose proof (K_lt (nth (S i0) K 0%nat) (nth_In _ _ Hl)). lia. }
      specialize (G i ltac:(lia)). fold T. lia.
  Qed.

  (** An emitted item and its position. *)
  Lemma out_pos outs o k : iterated_ewma P f = Ok outs -> In o outs -> (k < T)%nat -> itime o = nth k (findex f) 0%Z ->
    exists i, (i < length K)%nat /\ (min_periods_cov P <= i + 1)%nat /\ nth i K 0%nat = k /\
      o = pitem P hv hc h1 h2 rc (findex f) (fcols f) x i.
  Proof.
    intros HO Hin Hk Ht. destruct (out_item P f x hv hc h1 h2 rc HS Hf Hx outs o HO Hin) as (i & Hi & Hm & ->).
    exists i. split; auto. split; auto. split; auto.
    unfold pitem in Ht. cbn [itime] in Ht. unfold tm, kpos in Ht. fold K in Ht, Hi.
    apply (proj1 (NoDup_nth (findex f) 0%Z)); auto.
    - apply (valid_good f Hf).
    - apply K_lt, nth_In; auto.
  Qed.

  (** *** C06 *)
  Lemma radj_zero_pv j k : radj rc (y j k) (pv P hv h1 rc x j k) = 0 <-> y j k = 0.
  Proof.
    apply radj_zero.
    - intros c E. eapply (rc_ne P); eauto.
    - intros E. apply (pv_zero_none P hv hc h1 h2 rc HU); auto.
    - apply pv_nonneg.
  Qed.

  Lemma dropped_zero k j : (fp <= k < T)%nat -> ~ In k K -> (j < n)%nat -> y j k = 0.
  Proof.
    intros Hk HK Hj. destruct (Req_dec (y j k) 0) as [|Hne]; auto. exfalso. apply HK. apply filter_In.
    split; [apply in_seq; fold T; lia|]. apply andb_true_iff. split; [apply Nat.leb_le; unfold fp, first_pos in Hk; lia|].
    apply existsb_exists. exists j. split; [apply in_seq; fold n; lia|]. unfold dfb. fold y.
    destruct (Req_EM_T (y j k) 0); [congruence|]. destruct (Req_EM_T _ 0); auto.
  Qed.

  Lemma pc_zero_nomean i p : use_mean P = false -> (i < length K)%nat -> (p < n)%nat ->
    (pc P hv hc h1 h2 rc (findex f) (fcols f) x i p p = 0 <->
     forall s, (fp <= s <= nth i K 0)%nat -> x p s = 0).
  Proof.
    intros Hm Hi Hp. unfold pc.
    rewrite ewavg_zero_iff; [|apply (hb_c P hv hc h1 h2 rc HU)|intros; nra].
    assert (EY : forall s, y p s = x p s) by (intros; unfold y, py, cen; rewrite Hm; auto).
    assert (EA : forall s, pa P hv h1 h2 rc (findex f) (fcols f) x p s = radj rc (y p (nth s K 0%nat)) (pv P hv h1 rc x p (nth s K 0%nat))).
    { intros s. unfold pa, cen. rewrite Hm. reflexivity. }
    pose proof (K_lt (nth i K 0%nat) (nth_In _ _ Hi)) as HKi.
    split.
    - intros H s Hs. rewrite <- EY.
      destruct (in_dec Nat.eq_dec s K) as [HsK|HsK]; [|apply dropped_zero; auto; lia].
      destruct (sorted_nth_le K i s K_sorted Hi HsK ltac:(lia)) as (s' & Hs' & Es).
      specialize (H s' Hs'). rewrite EA in H. apply Rmult_integral in H.
      assert (H' : radj rc (y p (nth s' K 0%nat)) (pv P hv h1 rc x p (nth s' K 0%nat)) = 0) by tauto.
      apply radj_zero_pv in H'. rewrite Es in H'. auto.
    - intros H s Hs. rewrite EA.
      rewrite (proj2 (radj_zero_pv p (nth s K 0%nat))); [ring|]. rewrite EY. apply H.
      assert (HsK : (s < length K)%nat) by lia.
      pose proof (K_lt (nth s K 0%nat) (nth_In _ _ HsK)).
      destruct (Nat.eq_dec s i) as [->|]; [lia|]. pose proof (sorted_nth_lt K s i K_sorted ltac:(lia)). lia.
  Qed.

  Lemma nan_pattern outs o k p q : use_mean P = false ->
    iterated_ewma P f = Ok outs -> In o outs -> (k < T)%nat -> itime o = nth k (findex f) 0%Z ->
    (p < n)%nat -> (q < n)%nat ->
    (cov_at o p q = NaN <->
       (forall s, (fp <= s <= k)%nat -> x p s = 0) \/ (forall s, (fp <= s <= k)%nat -> x q s = 0)) /\
    (cov_at o p q <> NaN -> exists r, cov_at o p q = Fin r).
  Proof.
    intros Hm HO Hin Hk Ht Hp Hq. destruct (out_pos outs o k HO Hin Hk Ht) as (i & Hi & _ & Ek & ->).
    rewrite cov_at_pitem by auto. unfold pcov.
    pose proof (pc_zero_nomean i p Hm Hi Hp) as Zp. pose proof (pc_zero_nomean i q Hm Hi Hq) as Zq. rewrite Ek in Zp, Zq.
    destruct (Req_EM_T (pc P hv hc h1 h2 rc (findex f) (fcols f) x i p p) 0); [split; [tauto|congruence]|].
    destruct (Req_EM_T (pc P hv hc h1 h2 rc (findex f) (fcols f) x i q q) 0); [split; [tauto|congruence]|].
    split; [|intros; eexists; reflexivity]. split; [discriminate|]. tauto.
  Qed.

  (** *** C10 for the whole pipeline *)
  Lemma trap_iterated c outs o j : rc = Some c ->
    iterated_ewma P f = Ok outs -> In o outs -> (j < n)%nat ->
    (forall s, (s <= min_periods_vola P)%nat -> centred (use_mean P) h1 x j s = 0) ->
    vol_at o j = Fin 0 /\
    forall q, (q < n)%nat -> (cov_at o j q = NaN \/ cov_at o j q = Fin 0) /\ (cov_at o q j = NaN \/ cov_at o q j = Fin 0).
  Proof.
    intros Erc HO Hin Hj Hz. destruct (out_item P f x hv hc h1 h2 rc HS Hf Hx outs o HO Hin) as (i & Hi & _ & ->).
    set (k := kpos P hv h1 rc (findex f) (fcols f) x i).
    assert (E : pv P hv h1 rc x j k = 0).
    { unfold pv, rvol. rewrite Erc. simpl sqo. rewrite rst_trap; [apply sqrt_0|apply (hb_v P hv hc h1 h2 rc HU)| | |].
      - pose proof (rc_ne P hv hc h1 h2 rc HU c Erc). nra.
      - intros s Hs. fold y. change (y j s) with (centred (use_mean P) h1 x j s). rewrite (Hz s Hs). ring.
      - intros; nra. }
    split; [rewrite vol_at_pitem by auto; fold k; rewrite E; auto|].
    intros q Hq. rewrite !cov_at_pitem by auto. unfold pcov. fold k. rewrite E.
    destruct (Req_EM_T (pc P hv hc h1 h2 rc (findex f) (fcols f) x i j j) 0);
    destruct (Req_EM_T (pc P hv hc h1 h2 rc (findex f) (fcols f) x i q q) 0); auto.
    split; right; f_equal; ring.
  Qed.

  (** *** C15 *)
  Lemma first_cov_nan outs o rest p q : use_mean P = true -> (min_periods_cov P <= 1)%nat ->
    iterated_ewma P f = Ok outs -> outs = o :: rest -> (p < n)%nat -> (q < n)%nat -> cov_at o p q = NaN.
  Proof.
    intros Hm Hc HO Ho Hp Hq.
    rewrite (iterated_explicit P f x hv hc h1 h2 rc HS Hf Hx) in HO. cbv zeta in HO. fold K in HO.
    destruct (isnil K); [discriminate|]. inversion HO as [E]; clear HO. rewrite Ho in E.
    rewrite late_first in E. replace (first_pos (min_periods_cov P)) with 0%nat in E by (unfold first_pos; lia).
    destruct (length K - 0)%nat; [discriminate|]. cbn [seq map] in E. injection E as E _. subst o.
    rewrite cov_at_pitem by auto. unfold pcov.
    destruct (Req_EM_T (pc P hv hc h1 h2 rc (findex f) (fcols f) x 0 p p) 0) as [|Hne]; auto.
    exfalso. apply Hne. unfold pc. rewrite ewavg_0 by apply (hb_c P hv hc h1 h2 rc HU).
    unfold pa, cen. rewrite Hm, ewavg_0 by apply (hb_2 P hv hc h1 h2 rc HU). ring.
  Qed.

  Lemma centred_zero_const b u i : 0 < b < 1 ->
    ((forall s, (s <= i)%nat -> u s - ewavg b u s = 0) <-> exists c, forall s, (s <= i)%nat -> u s = c).
  Proof.
    intros Hb. split.
    - intros H. exists (u 0%nat). 
      assert (G : forall s, (s <= i)%nat -> u s = u 0%nat /\ ewavg b u s = u 0%nat).
      { induction s; intros Hs; [split; auto; apply ewavg_0; auto|].
        destruct (IHs ltac:(lia)) as [_ E]. specialize (H (S s) Hs). rewrite ewavg_S in * by auto. rewrite E in *.
        pose proof (wnew_lt1 b Hb (S s) ltac:(lia)).
        assert ((1 - wnew b (S s)) * (u (S s) - u 0%nat) = 0) by lra.
        apply Rmult_integral in H1. destruct H1; [lra|]. split; [lra|]. replace (u (S s)) with (u 0%nat) by lra. ring. }
      intros s Hs. apply G; auto.
    - intros (c & H) s Hs. rewrite H by auto.
      assert (E : ewavg b u s = ewavg b (fun _ => c) s).
      { unfold ewavg. f_equal. apply rsum_ext. intros k Hk. rewrite H by lia. auto. }
      rewrite E, ewavg_const by auto. ring.
  Qed.

  Lemma mean_nan_iff outs o k p : use_mean P = true -> rc = None ->
    (exists j s, (j < n)%nat /\ (s <= fp)%nat /\ centred true h1 x j s <> 0) ->
    iterated_ewma P f = Ok outs -> In o outs -> (k < T)%nat -> itime o = nth k (findex f) 0%Z -> (p < n)%nat ->
    (cov_at o p p = NaN <->
     exists c, forall s, (fp <= s <= k)%nat ->
       centred true h1 x p s / ewstd hv (centred true h1 x p) s = c).
  Proof.
    intros Hm Hrc (j & s0 & Hj & Hs0 & Hy) HO Hin Hk Ht Hp.
    assert (HK : K = seq fp (T - fp)) by (apply (K_full j s0); auto; rewrite y_centred, Hm; auto).
    destruct (out_pos outs o k HO Hin Hk Ht) as (i & Hi & _ & Ek & ->).
    rewrite HK in Ek. rewrite HK, seq_length in Hi. rewrite seq_nth in Ek by lia. subst k.
    rewrite cov_at_pitem by auto. unfold pcov.
    assert (EA : forall s, (s <= i)%nat -> pa0 P hv h1 rc (findex f) (fcols f) x p s =
       centred true h1 x p (fp + s) / ewstd hv (centred true h1 x p) (fp + s)).
    { intros s Hs. unfold pa0. unfold kpos. fold K. rewrite HK, seq_nth by lia. fold y.
      assert (Ey : forall k, y p k = centred true h1 x p k) by (intros; rewrite y_centred, Hm; auto).
      assert (Ev : pv P hv h1 rc x p (fp + s) = ewstd hv (centred true h1 x p) (fp + s)).
      { unfold pv, rvol, ewstd. rewrite Hrc. simpl sqo. rewrite rst_closed by apply (hb_v P hv hc h1 h2 rc HU).
        rewrite <- ewavg_sq_pow. f_equal. unfold ewavg. f_equal. apply rsum_ext; intros; fold y; rewrite Ey; auto. }
      rewrite Ev, Ey. unfold radj. rewrite Hrc. simpl clipR.
      destruct (Req_EM_T (ewstd hv (centred true h1 x p) (fp + s)) 0) as [E0|]; auto.
      assert (Z : centred true h1 x p (fp + s) = 0).
      { rewrite <- Ey. apply (pv_zero_none P hv hc h1 h2 rc HU); auto. rewrite Ev; auto. }
      rewrite Z. destruct (Req_EM_T 0 0); [|lra]. unfold Rdiv; ring. }
    assert (EZ : pc P hv hc h1 h2 rc (findex f) (fcols f) x i p p = 0 <->
      exists c, forall s, (s <= i)%nat -> pa0 P hv h1 rc (findex f) (fcols f) x p s = c).
    { unfold pc. rewrite ewavg_zero_iff; [|apply (hb_c P hv hc h1 h2 rc HU)|intros; nra].
      rewrite <- centred_zero_const by apply (hb_2 P hv hc h1 h2 rc HU).
      unfold pa, cen. rewrite Hm. split; intros H s Hs; specialize (H s Hs).
      - apply Rmult_integral in H; tauto.
      - rewrite H; ring. }
    assert (EC : (exists c, forall s, (s <= i)%nat -> pa0 P hv h1 rc (findex f) (fcols f) x p s = c) <->
      exists c, forall s, (fp <= s <= fp + i)%nat -> centred true h1 x p s / ewstd hv (centred true h1 x p) s = c).
    { split; intros (c & H); exists c; intros s Hs.
      - specialize (H (s - fp)%nat ltac:(lia)). rewrite EA in H by lia. replace (fp + (s - fp))%nat with s in H by lia. auto.
      - rewrite EA by auto. apply H. lia. }
    rewrite <- EC, <- EZ.
    destruct (Req_EM_T (pc P hv hc h1 h2 rc (findex f) (fcols f) x i p p) 0); [tauto|].
    split; [discriminate|tauto].
  Qed.
End Out.

(** ** C11 *)
Lemma clip1_limit c z : c <> 0 -> clip1 (N := XR) (Fin c) z = limit (Rabs c) z.
Proof.
  intros Hc. pose proof (Rabs_pos_lt c Hc). destruct z as [r| | |].
  - rewrite clip1_fin by auto. simpl. f_equal. unfold Rmin, Rmax.
    destruct (Rle_dec r (- Rabs c)), (Rle_dec (Rabs c) r);
    repeat match goal with |- context [Rle_dec ?a ?b] => destruct (Rle_dec a b) end; lra.
  - apply clip1_pinf; auto.
  - apply clip1_ninf; auto.
  - rewrite clip1_bounds; auto.
Qed.

Lemma limit_nan a z : xisnan (limit a z) = xisnan z.
Proof. destruct z; auto. Qed.
Lemma limit_idem a z : 0 <= a -> limit a (limit a z) = limit a z.
Proof.
  intros Ha.
  assert (G : forall r, - a <= r <= a -> Rmax (- a) (Rmin a r) = r).
  { intros r Hr. rewrite Rmin_right, Rmax_right by lra. auto. }
  assert (B : forall r, - a <= Rmax (- a) (Rmin a r) <= a).
  { intros r. split; [apply Rmax_l|]. apply Rmax_lub; [lra|apply Rmin_l]. }
  destruct z as [r| | |]; cbn [limit]; auto; f_equal; apply G; auto; lra.
Qed.

Lemma all_nan_limit a r : forallb xisnan (map (limit a) r) = forallb xisnan r.
Proof. rewrite forallb_map. apply forallb_ext_in. intros; apply limit_nan. Qed.

Lemma combine_map_r {A B C} (g : B -> C) (l : list A) (r : list B) :
  combine l (map g r) = map (fun p => (fst p, g (snd p))) (combine l r).
Proof. revert r; induction l; destruct r; simpl; auto. f_equal; auto. Qed.

Lemma clip_explicit f c : c <> 0 ->
  fcols (clip f (Some (Fin c))) = fcols f /\
  combine (findex (clip f (Some (Fin c)))) (fvals (clip f (Some (Fin c)))) =
  map (fun p => (fst p, map (limit (Rabs c)) (snd p))) (rows_with_data f).
Proof.
  intros Hc. unfold clip. rewrite (clip_truthy (Some (Fin c)) (Some c)) by (split; auto). cbn [option_map].
  split; [reflexivity|]. unfold fdropna_all. cbn [findex fvals fmap]. rewrite combine_map_fst_snd.
  assert (E : map (map (clip1 (N := XR) (Fin c))) (fvals f) = map (map (limit (Rabs c))) (fvals f)).
  { apply map_ext; intros r. apply map_ext; intros z. apply clip1_limit; auto. }
  rewrite E, combine_map_r. rewrite filter_map_comm. unfold rows_with_data.
  f_equal. apply filter_ext. intros p. simpl. unfold all_nan. f_equal.
  change (nisnan (Num := XR)) with xisnan. rewrite all_nan_limit. auto.
Qed.

Lemma clip_nothing f (o : option xr) : o = None \/ o = Some (Fin 0) ->
  fcols (clip f o) = fcols f /\ combine (findex (clip f o)) (fvals (clip f o)) = rows_with_data f.
Proof.
  intros Ho. unfold clip. rewrite (clip_truthy o None) by auto. cbn [option_map].
  split; [reflexivity|]. unfold fdropna_all. cbn [findex fvals]. rewrite combine_map_fst_snd. reflexivity.
Qed.

Lemma clip_sign f c : c <> 0 -> clip f (Some (Fin (- c))) = clip f (Some (Fin c)).
Proof.
  intros Hc. assert (Hc' : - c <> 0) by lra. unfold clip.
  rewrite (clip_truthy (Some (Fin c)) (Some c)), (clip_truthy (Some (Fin (- c))) (Some (- c))) by (split; auto).
  cbn [option_map]. f_equal. unfold fmap. f_equal. apply map_ext; intros r. apply map_ext; intros z.
  rewrite !clip1_limit, Rabs_Ropp by auto. reflexivity.
Qed.

Lemma clip_idem f c : c <> 0 -> length (findex f) = length (fvals f) ->
  clip (clip f (Some (Fin c))) (Some (Fin c)) = clip f (Some (Fin c)).
Proof.
  intros Hc HL. pose proof (Rabs_pos_lt c Hc) as Ha.
  assert (G : forall g, length (findex g) = length (fvals g) ->
     clip g (Some (Fin c)) = mkFrame (map fst (map (fun p => (fst p, map (limit (Rabs c)) (snd p))) (rows_with_data g))) (fcols g)
       (map snd (map (fun p => (fst p, map (limit (Rabs c)) (snd p))) (rows_with_data g)))).
  { intros g Hg. destruct (clip_explicit g c Hc) as [E1 E2]. rewrite <- E2, <- E1.
    set (h := clip g (Some (Fin c))).
    assert (Lh : length (findex h) = length (fvals h)).
    { unfold h, clip. destruct (truthy _); unfold fdropna_all; cbn [findex fvals]; rewrite !map_length; auto. }
    rewrite map_fst_combine by exact (Nat.eq_le_incl _ _ Lh). rewrite map_snd_combine by exact (Nat.eq_le_incl _ _ (eq_sym Lh)). destruct h; reflexivity. }
  rewrite (G f HL). set (l := rows_with_data f).
  rewrite G by (cbn [findex fvals]; rewrite !map_length; auto). cbn [fcols].
  assert (E : rows_with_data (mkFrame (map fst (map (fun p => (fst p, map (limit (Rabs c)) (snd p))) l)) (fcols f)
      (map snd (map (fun p => (fst p, map (limit (Rabs c)) (snd p))) l))) = map (fun p => (fst p, map (limit (Rabs c)) (snd p))) l).
  { unfold rows_with_data at 1. cbn [findex fvals]. rewrite combine_map_fst_snd. apply filter_all.
    intros p Hp. apply in_map_iff in Hp. destruct Hp as (p0 & <- & Hp0). simpl. rewrite all_nan_limit.
    unfold l, rows_with_data in Hp0. apply filter_In in Hp0. apply Hp0. }
  rewrite E. rewrite !map_map. cbn [fst snd]. f_equal. apply map_ext. intros p. rewrite map_map.
  apply map_ext. intros z. apply limit_idem. lra.
Qed.

(** ** C07 *)
Lemma nan_is_zero_fill {N : Num} P f : nan_to_num P = true ->
  iterated_ewma P f = iterated_ewma (with_nan_to_num false P) (zero_filled f).
Proof.
  intros H. rewrite !iterated_prep. unfold prep, with_nan_to_num, adjusted.
  cbn [nan_to_num vola_halflife cov_halflife min_periods_vola min_periods_cov use_mean mu_halflife1 mu_halflife2 p_clip_at].
  rewrite H. reflexivity.
Qed.
Lemma nan_fill_twice {N : Num} P f : nan_to_num P = true -> nisnan n0 = false ->
  iterated_ewma P f = iterated_ewma P (zero_filled f).
Proof.
  intros H Hn. rewrite !iterated_prep. unfold prep. rewrite H.
  assert (E : ffillna0 (zero_filled f) = ffillna0 f).
  { unfold ffillna0, fmap, zero_filled. cbn [findex fcols fvals]. f_equal. rewrite map_map. apply map_ext; intros r.
    rewrite map_map. apply map_ext; intros z. destruct (nisnan z) eqn:E; [rewrite Hn|rewrite E]; auto. }
  rewrite E. reflexivity.
Qed.

(** ** Statements used by PropEwma.v *)
Lemma ewma_closed_form f x h mp :
  valid_returns f -> returns_are false f x -> fvals f <> [] -> 0 < h ->
  (exists v, volatility f (Some (Fin h)) mp None = Ok v /\ fcols v = fcols f /\
    findex v = skipn (first_pos mp) (findex f) /\
    (forall k j, (first_pos mp <= k < length (findex f))%nat -> (j < length (fcols f))%nat ->
       entry v (k - first_pos mp) j = Fin (sqrt (ewavg (decay h) (fun s => x j s ^ 2) k)))) /\
  (exists d m, center f (Some (Fin h)) mp true = Ok (d, m) /\ fcols m = fcols f /\
    findex m = skipn (first_pos mp) (findex f) /\
    (forall k j, (first_pos mp <= k < length (findex f))%nat -> (j < length (fcols f))%nat ->
       entry m (k - first_pos mp) j = Fin (ewavg (decay h) (x j) k))).
Proof.
  intros Hf Hx Hne Hh. split; [apply volatility_closed; auto|].
  destruct (center_explicit f x h mp Hf Hx Hne Hh) as (d & m & H1 & H2 & H3 & H4 & H5 & H6).
  exists d, m. repeat split; auto. intros k j Hk Hj. apply H6; auto.
Qed.

Lemma limit_inside a r : - a <= r <= a -> limit a (Fin r) = Fin r.
Proof. intros H. simpl. rewrite Rmin_right, Rmax_right by lra. reflexivity. Qed.

Lemma center_off f x (o : option xr) mp :
  valid_returns f -> returns_are false f x ->
  exists m, center f o mp false = Ok (f, m) /\ findex m = findex f /\ fcols m = fcols f /\
    forall k j, (k < length (findex f))%nat -> (j < length (fcols f))%nat -> entry m k j = Fin 0.
Proof.
  intros Hf Hx. unfold center. eexists. split; [reflexivity|]. split; [reflexivity|]. split; [reflexivity|].
  intros k j Hk Hj. rewrite (returns_are_false f x Hf Hx). unfold ffin. rewrite fmap_ftab.
  unfold entry, ftab. cbn [fvals]. rewrite tabl_nth by auto. rewrite trow_nth by auto. cbn. f_equal. ring.
Qed.
Lemma first_row_zero h x j : 0 < h -> centred true h x j 0 = 0.
Proof. intros H. unfold centred. rewrite ewavg_0 by (apply decay_bounds; auto). ring. Qed.
