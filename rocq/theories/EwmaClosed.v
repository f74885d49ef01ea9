(** * Closed form of the winsorised volatility and of every item of iterated_ewma. *)
From Coq Require Import String Reals Lra Psatz List Bool ZArith Arith Lia.
From Verif Require Import Num Py ListFacts Ewma EwmaTot EwmaPrefix EwmaEquiv XRFacts Spec SpecEwma EwmaReal EwmaTab EwmaFin EwmaProps EwmaProps2 EwmaProps3.
Import ListNotations.
Local Open Scope R_scope.

Lemma eweight_wnew b k : 0 < b < 1 -> eweight b k k = wnew b k.
Proof. intros Hb. unfold eweight. rewrite Nat.sub_diag, pow_O, wnew_etot by auto. unfold Rdiv; ring. Qed.

Lemma winsor_rst h mp rc y k : 0 < h -> okc (sqo rc) ->
  rst (decay h) mp (sqo rc) (fun s => y s * y s) k = winsor_var h mp rc y k.
Proof.
  intros Hh Hc. pose proof (decay_bounds h Hh) as Hb. induction k; [simpl; ring|].
  change (rst (decay h) mp (sqo rc) (fun s => y s * y s) (S k)) with
    (rupd (decay h) mp (sqo rc) (S k) (rst (decay h) mp (sqo rc) (fun s => y s * y s) k) (y (S k) * y (S k))).
  assert (Hn : 0 <= rst (decay h) mp (sqo rc) (fun s => y s * y s) k) by (apply rst_nonneg; auto; intros; nra).
  rewrite IHk in *. cbn [winsor_var]. rewrite eweight_wnew by auto. set (e := winsor_var h mp rc y k) in *.
  destruct rc as [c|]; cbn [sqo option_map] in *.
  - destruct (Nat.leb_spec (S k) mp).
    + rewrite rupd_early by (auto; lia). simpl; ring.
    + rewrite rupd_clip by (auto; lia). replace (y (S k) ^ 2) with (y (S k) * y (S k)) by ring. replace (c ^ 2) with (c * c) by ring.
      simpl in Hc. rewrite (Rmax_left (y (S k) * y (S k)) (- (c * c) * e)); [reflexivity|].
      assert (0 <= c * c * e) by (apply Rmult_le_pos; lra). nra.
  - rewrite rupd_none by auto. simpl; ring.
Qed.

(** A clip level that is positive after squaring. *)
Lemma winsor_none h mp y k : 0 < h -> winsor_var h mp None y k = ewavg (decay h) (fun s => y s ^ 2) k.
Proof.
  intros Hh. rewrite <- (winsor_rst h mp None y k Hh I). simpl sqo. rewrite rst_closed by (apply decay_bounds; auto). apply ewavg_sq_pow.
Qed.
Lemma winsor_early h mp c y k : 0 < h -> c <> 0 -> (k <= mp)%nat -> winsor_var h mp (Some c) y k = ewavg (decay h) (fun s => y s ^ 2) k.
Proof.
  intros Hh Hc Hk. assert (Hcc : okc (sqo (Some c))) by (simpl; nra).
  rewrite <- (winsor_rst h mp (Some c) y k Hh Hcc). simpl sqo. rewrite rst_early by (auto using decay_bounds). apply ewavg_sq_pow.
Qed.

(** C09: the whole path of the volatility. *)
Lemma volatility_path f x h mp o rc :
  valid_returns f -> returns_are false f x -> fvals f <> [] -> 0 < h -> clip_is o rc ->
  exists v, volatility f (Some (Fin h)) mp o = Ok v /\ fcols v = fcols f /\
    findex v = skipn (first_pos mp) (findex f) /\
    (forall k j, (first_pos mp <= k < length (findex f))%nat -> (j < length (fcols f))%nat ->
       entry v (k - first_pos mp) j = Fin (sqrt (winsor_var h mp rc (x j) k))).
Proof.
  intros Hf Hx Hne Hh Hc. destruct (volatility_explicit f x h mp o rc Hf Hx Hne Hh Hc) as (v & H1 & H2 & H3 & H4).
  exists v; repeat split; auto. intros k j Hk Hj. rewrite H4 by auto. unfold rvol. rewrite winsor_rst; auto. eapply okc_clip; eauto.
Qed.

Lemma radj_standardised rc y v : (forall c, rc = Some c -> c <> 0) -> (rc = None -> v = 0 -> y = 0) ->
  radj rc y v = standardised rc y v.
Proof.
  intros Hc Hn. unfold radj, standardised, xdiv. destruct (Req_EM_T v 0) as [Hv|Hv].
  - unfold inf_sgn. destruct (Req_EM_T y 0) as [Hy|Hy].
    + destruct (Rlt_dec 0 y); [lra|]. destruct (Rlt_dec y 0); [lra|]. destruct rc; reflexivity.
    + destruct rc as [c|]; [|exfalso; auto]. destruct (Rlt_dec 0 y); [reflexivity|]. destruct (Rlt_dec y 0); [reflexivity|lra].
  - destruct rc as [c|]; [|reflexivity]. cbn [limit xval clipR]. pose proof (Rabs_pos c).
    unfold Rmin, Rmax. destruct (Rle_dec (y / v) (- Rabs c)), (Rle_dec (Rabs c) (y / v)); 
      repeat match goal with |- context [Rle_dec ?a ?b] => destruct (Rle_dec a b) end; lra.
Qed.

Lemma ewavg_ext b u v k : (forall s, (s <= k)%nat -> u s = v s) -> ewavg b u k = ewavg b v k.
Proof. intros H. unfold ewavg. f_equal. apply rsum_ext. intros s Hs. rewrite H; auto; lia. Qed.

Section Closed.
  Variables (P : params (N := XR)) (f : frame time) (x : nat -> nat -> R) (hv hc h1 h2 : R) (rc : option R).
  Hypothesis HS : settings P hv hc h1 h2 rc.
  Hypothesis Hf : valid_returns f.
  Hypothesis Hx : returns_are (nan_to_num P) f x.
  Let n := length (fcols f).
  Let T := length (findex f).
  Let fp := first_pos (min_periods_vola P).

  Lemma items_closed outs o k :
    (exists j s, (j < n)%nat /\ (s <= fp)%nat /\ centred (use_mean P) h1 x j s <> 0) ->
    iterated_ewma P f = Ok outs -> In o outs -> (k < T)%nat -> itime o = nth k (findex f) 0%Z ->
    let y := centred (use_mean P) h1 x in
    let v := fun j s => sqrt (winsor_var hv (min_periods_vola P) rc (y j) s) in
    let z := fun j s => standardised rc (y j (fp + s)%nat) (v j (fp + s)%nat) in
    let a := centred (use_mean P) h2 z in
    let c := fun p q => ewavg (decay hc) (fun s => a p s * a q s) (k - fp) in
    forall p, (p < n)%nat ->
      vol_at o p = Fin (v p k) /\
      mean_at o p = Fin (if use_mean P then ewavg (decay h1) (x p) k + v p k * ewavg (decay h2) (z p) (k - fp) else 0) /\
      forall q, (q < n)%nat ->
        (c p p <> 0 -> c q q <> 0 -> cov_at o p q = Fin (v p k * v q k * (c p q / sqrt (c p p * c q q)))) /\
        (c p p = 0 \/ c q q = 0 -> cov_at o p q = NaN).
  Proof.
    intros (j0 & s0 & Hj0 & Hs0 & Hy0) HO Hin Hk Ht y v z a c p Hp.
    pose proof (settings_usable _ _ _ _ _ _ HS) as HU.
    destruct (out_pos P f x hv hc h1 h2 rc HS Hf Hx outs o k HO Hin Hk Ht) as (i & Hi & Hm & Ek & ->).
    assert (EK : kp P hv h1 rc (findex f) (fcols f) x = seq fp (T - fp)).
    { apply (K_full P f x hv hc h1 h2 rc HS j0 s0 Hj0 Hs0 Hy0). }
    rewrite EK, seq_length in Hi. rewrite EK, seq_nth in Ek by auto.
    assert (Ekp : forall s, (s < T - fp)%nat -> kpos P hv h1 rc (findex f) (fcols f) x s = (fp + s)%nat).
    { intros s Hs. unfold kpos. rewrite EK, seq_nth; auto. }
    assert (Ei : i = (k - fp)%nat) by lia.
    assert (Ev : forall j s, pv P hv h1 rc x j s = v j s).
    { intros j s. unfold pv, rvol, v. rewrite winsor_rst; [reflexivity|apply (us_v _ _ _ _ _ _ HU)|].
      eapply okc_sqo, (us_clip _ _ _ _ _ _ HU). }
    assert (Ez : forall j s, (s < T - fp)%nat -> pa0 P hv h1 rc (findex f) (fcols f) x j s = z j s).
    { intros j s Hs. unfold pa0, z. rewrite Ekp, Ev by auto. apply radj_standardised.
      - intros c0 E. eapply (rc_ne P); eauto.
      - intros E E0. apply (pv_zero_none P hv hc h1 h2 rc HU); auto. rewrite Ev; auto. }
    assert (Ea : forall j s, (s <= i)%nat -> pa P hv h1 h2 rc (findex f) (fcols f) x j s = a j s).
    { intros j s Hs. unfold pa, cen, a, centred. rewrite Ez by lia. destruct (use_mean P); [|reflexivity].
      f_equal. apply ewavg_ext. intros; apply Ez; lia. }
    assert (Ec : forall p q, pc P hv hc h1 h2 rc (findex f) (fcols f) x i p q = c p q).
    { intros p' q'. unfold pc, c. rewrite Ei. apply ewavg_ext. intros s Hs. rewrite !Ea by lia. reflexivity. }
    assert (Hk' : kpos P hv h1 rc (findex f) (fcols f) x i = k) by (rewrite Ekp by auto; auto).
    split; [|split].
    - rewrite vol_at_pitem by auto. rewrite Hk', Ev. reflexivity.
    - unfold mean_at, pitem. cbn [imean]. destruct (use_mean P) eqn:Em.
      + rewrite (nth_map_lt _ _ _ 0%nat) by (rewrite seq_length; auto). rewrite nth_seq0 by auto.
        rewrite Hk', Ev, Ei. do 3 f_equal. apply ewavg_ext. intros s Hs. apply Ez; lia.
      + rewrite (nth_map_lt _ _ _ EmptyString) by auto. reflexivity.
    - intros q Hq. rewrite cov_at_pitem by auto. unfold pcov. rewrite !Ec, Hk', !Ev.
      pose proof (pc_nonneg P hv hc h1 h2 rc HU (findex f) (fcols f) x i p) as Np.
      pose proof (pc_nonneg P hv hc h1 h2 rc HU (findex f) (fcols f) x i q) as Nq. rewrite Ec in Np, Nq. split.
      + intros Zp Zq. destruct (Req_EM_T (c p p) 0); [congruence|]. destruct (Req_EM_T (c q q) 0); [congruence|].
        f_equal. rewrite sqrt_mult by auto. unfold Rdiv. ring.
      + intros [Z|Z]; destruct (Req_EM_T (c p p) 0); try congruence. destruct (Req_EM_T (c q q) 0); congruence.
  Qed.
End Closed.
