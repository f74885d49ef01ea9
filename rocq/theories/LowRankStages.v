(** * The preprocessing of low_rank_iterated_ewma (experiments/utils/low_rank_ewma.py): centring, volatility, standardising. *)
From Coq Require Import String Reals Lra Psatz List Bool ZArith Arith Lia.
From Verif Require Import Num Py ListFacts Ewma EwmaTot EwmaPrefix EwmaEquiv XRFacts Spec SpecEwma EwmaReal EwmaTab EwmaFin EwmaProps EwmaProps2 EwmaProps3 EwmaClosed.
Import ListNotations.
Local Open Scope R_scope.

Section Stages.
  Context {N : Num}.

  (** The frames computed before the loop. *)
  Record lr_frames : Type := mkLrFrames {
    lf_ret : frame time; lf_mean : frame time; lf_vola : frame time; lf_adj : frame time; lf_adj_mean : frame time
  }.

  (** low_rank_ewma.py:32-33 and 61-84.  Unlike iterated_ewma neither the returns nor the standardised returns are filled with
      zeros ([nan_to_num] is not a parameter of this function and is ignored here). *)
  Definition lr_stages (P : params) (returns : frame time) : res lr_frames :=
    let mu1 := or_else (mu_halflife1 P) (vola_halflife P) in
    let mu2 := or_else (mu_halflife2 P) (cov_halflife P) in
    do '(returns, returns_mean) <- center returns mu1 0 (use_mean P);
    do vola <- volatility returns (vola_halflife P) (min_periods_vola P) (p_clip_at P);
    let adj := clip (falign ndiv returns vola) (p_clip_at P) in
    do '(adj, adj_mean) <- center adj mu2 0 (use_mean P);
    Ok (mkLrFrames returns returns_mean vola adj adj_mean).

  (** low_rank_ewma.py:57-58, 89-104: volatility and mean of the item for time t. *)
  Definition lr_vola_mean (P : params) (S : lr_frames) (t : time) : res (vec * vec) :=
    do v <- loc_or_raise (lf_vola S) t;
    do m <- (if use_mean P
             then do m1 <- loc_or_raise (lf_mean S) t;
                  do m2 <- loc_or_raise (lf_adj_mean S) t;
                  Ok (scale_mean v m1 m2)
             else Ok (map (fun _ => n0) (fcols (lf_ret S))));
    Ok (v, m).
End Stages.

Lemma nth_skipn_z (l : list Z) : forall k i, nth i (skipn k l) 0%Z = nth (k + i) l 0%Z.
Proof. induction l as [|a l IH]; intros [|k] i; simpl; auto. destruct i; auto. Qed.

Section Closed.
  Variables (P : params (N := XR)) (f : frame time) (x : nat -> nat -> R) (hv hc h1 h2 : R) (rc : option R).
  Hypothesis HS : settings P hv hc h1 h2 rc.
  Hypothesis Hf : valid_returns f.
  Hypothesis Hx : returns_are false f x.
  Let n := length (fcols f).
  Let T := length (findex f).
  Let fp := first_pos (min_periods_vola P).
  Let b1 := decay h1. Let bv := decay hv. Let b2 := decay h2.
  Let idx := findex f.
  Let cols := fcols f.
  Let K := kp P hv h1 rc idx cols x.
  Let pa' := pa P hv h1 h2 rc idx cols x.
  Let item := pitem P hv hc h1 h2 rc idx cols x.

  Hypothesis Hmv : forall j, (j < n)%nat -> exists s, (s <= fp)%nat /\ centred (use_mean P) h1 x j s <> 0.
  Hypothesis HT : (fp < T)%nat.

  Lemma stages_ok : exists S, lr_stages P f = Ok S /\ findex (lf_adj S) = skipn fp idx /\
    fvals (lf_adj S) = tabl (T - fp) n (fun j i => Fin (pa' j i)) /\
    forall i, (i < T - fp)%nat -> lr_vola_mean P S (nth (fp + i) idx 0%Z) = Ok (ivol (item i), imean (item i)).
  Proof.
    pose proof (settings_usable _ _ _ _ _ _ HS) as HU. pose proof (valid_good f Hf) as Hg.
    assert (Hn : (0 < length cols)%nat). { destruct Hf as (_ & _ & H). unfold cols. destruct (fcols f); [congruence|simpl; lia]. }
    assert (Hd : NoDup idx) by apply Hg.
    assert (HK : K = seq fp (T - fp)).
    { destruct (Hmv 0%nat Hn) as (s & Hs & Hy). exact (K_full P f x hv hc h1 h2 rc HS 0 s Hn Hs Hy). }
    pose proof (returns_are_false f x Hf Hx) as Ef.
    set (g := ffin idx cols x) in Ef.
    assert (Hb1 : use_mean P = true -> beta_of (N := XR) (or_else (mu_halflife1 P) (vola_halflife P)) None = Ok (Fin b1)).
    { intros _. destruct (us_1 _ _ _ _ _ _ HU) as [-> H]. apply beta_of_fin; auto. }
    assert (Hbv : beta_of (N := XR) (vola_halflife P) None = Ok (Fin bv)).
    { destruct (us_v _ _ _ _ _ _ HU) as [-> H]. apply beta_of_fin; auto. }
    assert (Hb2 : use_mean P = true -> beta_of (N := XR) (or_else (mu_halflife2 P) (cov_halflife P)) None = Ok (Fin b2)).
    { intros _. destruct (us_2 _ _ _ _ _ _ HU) as [-> H]. apply beta_of_fin; auto. }
    set (ret := ret_tot (Fin b1) P g). set (rm := retmean_tot (Fin b1) P g). set (vo := volaf_tot (Fin b1) (Fin bv) P g).
    assert (Epr : prep P g = g) by apply prep_ffin.
    assert (Er : ret = ffin idx cols (py P h1 x)) by (apply (ret_ffin P hv hc h1 h2 rc HU); auto).
    assert (Ev : vo = ptab idx cols (fun j k => Fin (pv P hv h1 rc x j k)) (late (min_periods_vola P) T)).
    { apply (volaf_ffin P hv hc h1 h2 rc HU); auto. }
    set (a0 := ffin (map (tm idx) K) cols (pa0 P hv h1 rc idx cols x)).
    assert (Ea0 : clip (falign ndiv ret vo) (p_clip_at P) = a0).
    { etransitivity; [exact (adj_raw P hv hc h1 h2 rc HU idx cols x Hn Hd)|]. unfold a0, ffin. apply ftab_ext. intros j i Hj Hi.
      rewrite map_length in Hi. fold K in Hi.
      assert (D : dfb (py P h1 x j (kpos P hv h1 rc idx cols x i)) (pv P hv h1 rc x j (kpos P hv h1 rc idx cols x i)) = true).
      { unfold dfb. destruct (Hmv j Hj) as (s & Hs & Hy). rewrite HK, seq_length in Hi.
        pose proof (pv_pos P f x hv hc h1 h2 rc HS j s (kpos P hv h1 rc idx cols x i) Hs Hy) as Hp.
        destruct (Req_EM_T _ 0) as [E|E]; auto. exfalso. unfold kpos in Hp, E. fold K in Hp, E. rewrite HK, seq_nth in Hp, E by auto.
        specialize (Hp ltac:(unfold fp; lia)). lra. }
      rewrite D. reflexivity. }
    assert (Hlen : length (map (tm idx) K) = (T - fp)%nat) by (rewrite map_length, HK, seq_length; auto).
    exists (mkLrFrames ret rm vo (fst (center_tot (Fin b2) (use_mean P) a0)) (snd (center_tot (Fin b2) (use_mean P) a0))).
    assert (Ha0 : center_tot (Fin b2) (use_mean P) a0 = (fst (center_tot (Fin b2) (use_mean P) a0), snd (center_tot (Fin b2) (use_mean P) a0)))
      by apply surjective_pairing.
    assert (NK : NoDup (map (tm idx) K)) by (apply kp_tm_nodup; auto).
    destruct (center_ffin b2 (use_mean P) (map (tm idx) K) cols (pa0 P hv h1 rc idx cols x)) as [C1 C2]; auto.
    { intros _. apply (hb_2 P hv hc h1 h2 rc HU). }
    split; [|split; [|split]].
    - unfold lr_stages. cbv zeta.
      assert (Ecen : center f (or_else (mu_halflife1 P) (vola_halflife P)) 0 (use_mean P) = center g (or_else (mu_halflife1 P) (vola_halflife P)) 0 (use_mean P))
        by (apply (f_equal (fun q => center q _ 0 (use_mean P))); exact Ef).
      rewrite Ecen. rewrite (center_eq g _ _ (Fin b1)); [|apply ftab_good; auto|auto].
      assert (Ng : isnil (fvals g) = false).
      { unfold g, ffin, ftab, tabl. cbn [fvals]. rewrite isnil_map. fold idx T. destruct (length idx) eqn:E; [unfold T in HT; unfold idx in E; lia|reflexivity]. }
      rewrite Ng, andb_false_r. cbn [bind].
      rewrite (surjective_pairing (center_tot (Fin b1) (use_mean P) g)). 
      assert (Ert : fst (center_tot (Fin b1) (use_mean P) g) = ret) by (unfold ret, ret_tot; rewrite Epr; reflexivity).
      assert (Erm : snd (center_tot (Fin b1) (use_mean P) g) = rm) by (unfold rm, retmean_tot; rewrite Epr; reflexivity).
      rewrite Ert, Erm.
      assert (Gr : good ret) by (rewrite Er; apply ftab_good; auto).
      rewrite (volatility_eq ret _ _ _ (Fin bv) Gr Hbv).
      assert (Nr : isnil (fvals ret) = false).
      { rewrite Er. unfold ffin, ftab, tabl. cbn [fvals]. rewrite isnil_map. destruct (length idx) eqn:E; [unfold T in HT; unfold idx in E; lia|reflexivity]. }
      rewrite Nr. cbn [bind]. change (vola_tot (Fin bv) (min_periods_vola P) (p_clip_at P) ret) with vo. cbv zeta.
      rewrite Ea0. rewrite (center_eq a0 _ _ (Fin b2)); [|apply ftab_good; auto|auto].
      assert (Na : isnil (fvals a0) = false).
      { unfold a0, ffin, ftab, tabl. cbn [fvals]. rewrite isnil_map, Hlen. destruct (T - fp)%nat eqn:E; [lia|reflexivity]. }
      rewrite Na, andb_false_r. cbn [bind]. rewrite Ha0. reflexivity.
    - cbn [lf_adj]. unfold a0. rewrite C1. unfold ffin, ftab. cbn [findex]. rewrite HK.
      apply (list_eq_nth 0%Z); [rewrite map_length, seq_length, skipn_length; auto|].
      intros i Hi. rewrite map_length, seq_length in Hi. rewrite (nth_map_lt _ _ _ 0%nat) by (rewrite seq_length; auto).
      rewrite seq_nth by auto. unfold tm. rewrite nth_skipn_z. reflexivity.
    - cbn [lf_adj]. unfold a0. rewrite C1. unfold ffin, ftab. cbn [fvals]. rewrite Hlen. reflexivity.
    - intros i Hi. unfold lr_vola_mean. cbn [lf_vola lf_mean lf_adj_mean lf_ret].
      assert (Ek : kpos P hv h1 rc idx cols x i = (fp + i)%nat) by (unfold kpos; fold K; rewrite HK, seq_nth; auto).
      assert (HiK : (i < length K)%nat) by (rewrite HK, seq_length; auto).
      assert (Lv : loc_or_raise vo (nth (fp + i) idx 0%Z) = Ok (ivol (item i))).
      { unfold loc_or_raise. rewrite Ev. change (nth (fp + i) idx 0%Z) with (tm idx (fp + i)). rewrite floc_ptab; auto.
        - rewrite existsb_late by (unfold T in *; lia). rewrite (proj2 (Nat.leb_le _ _)) by (unfold fp, first_pos; lia).
          unfold item, pitem. cbn [ivol]. rewrite Ek. reflexivity.
        - intros q Hq; eapply late_lt; eauto.
        - unfold T in *; unfold idx; lia. }
      rewrite Lv. cbn [bind]. destruct (use_mean P) eqn:Em.
      + assert (L1 : loc_or_raise rm (nth (fp + i) idx 0%Z) = Ok (map (fun j => Fin (ewavg b1 (x j) (fp + i))) (seq 0 n))).
        { assert (E : rm = ffin idx cols (fun j k => ewavg b1 (x j) k)) by exact (retmean_ffin P hv hc h1 h2 rc HU idx cols x Hn Hd Em). rewrite E. unfold loc_or_raise, ffin.
          change (nth (fp + i) idx 0%Z) with (tm idx (fp + i)). rewrite ftab_ptab, floc_ptab; auto.
          - rewrite (proj2 (existsb_eqb_In _ _)); [reflexivity|]. apply in_seq. unfold T in *; unfold idx; lia.
          - intros q Hq; apply in_seq in Hq; lia.
          - unfold T in *; unfold idx; lia. }
        assert (L2 : loc_or_raise (snd (center_tot (Fin b2) true a0)) (nth (fp + i) idx 0%Z) =
                     Ok (map (fun j => Fin (ewavg b2 (pa0 P hv h1 rc idx cols x j) i)) (seq 0 n))).
        { unfold a0. rewrite C2 by auto. unfold loc_or_raise, ffin.
          assert (E : nth (fp + i) idx 0%Z = tm (map (tm idx) K) i).
          { unfold tm at 1. rewrite (nth_map_lt _ K i 0%nat) by auto. rewrite HK, seq_nth by auto. reflexivity. }
          rewrite E, ftab_ptab, floc_ptab; auto.
          - rewrite (proj2 (existsb_eqb_In _ _)); [reflexivity|]. apply in_seq. lia.
          - intros q Hq; apply in_seq in Hq; lia.
          - lia. }
        rewrite L1, L2. cbn [bind]. unfold item, pitem. cbn [ivol imean]. rewrite Em, Ek. do 2 f_equal.
        unfold scale_mean. rewrite !map2_self. reflexivity.
      + cbn [bind]. unfold item, pitem. cbn [ivol imean]. rewrite Em, Er. reflexivity.
  Qed.

  Lemma adj_closed i j : (i < T - fp)%nat ->
    let y := centred (use_mean P) h1 x in
    let v := fun j s => sqrt (winsor_var hv (min_periods_vola P) rc (y j) s) in
    let z := fun j s => standardised rc (y j (fp + s)%nat) (v j (fp + s)%nat) in
    pa' j i = centred (use_mean P) h2 z j i.
  Proof.
    intros Hi y v z. pose proof (settings_usable _ _ _ _ _ _ HS) as HU.
    assert (Hn : (0 < length cols)%nat). { destruct Hf as (_ & _ & H). unfold cols. destruct (fcols f); [congruence|simpl; lia]. }
    assert (HK : K = seq fp (T - fp)).
    { destruct (Hmv 0%nat Hn) as (s & Hs & Hy). exact (K_full P f x hv hc h1 h2 rc HS 0 s Hn Hs Hy). }
    assert (Ekp : forall s, (s < T - fp)%nat -> kpos P hv h1 rc (findex f) (fcols f) x s = (fp + s)%nat).
    { intros s Hs. unfold kpos. fold idx cols K. rewrite HK, seq_nth; auto. }
    assert (Ev : forall j s, pv P hv h1 rc x j s = v j s).
    { intros j' s. unfold pv, rvol, v. rewrite winsor_rst; [reflexivity|apply (us_v _ _ _ _ _ _ HU)|].
      eapply okc_sqo, (us_clip _ _ _ _ _ _ HU). }
    assert (Ez : forall j s, (s < T - fp)%nat -> pa0 P hv h1 rc (findex f) (fcols f) x j s = z j s).
    { intros j' s Hs. unfold pa0, z. rewrite Ekp, Ev by auto. apply EwmaClosed.radj_standardised.
      - intros c0 E. eapply (rc_ne P); eauto.
      - intros E E0. apply (pv_zero_none P hv hc h1 h2 rc HU); auto. rewrite Ev; auto. }
    unfold pa', pa, cen, centred. unfold idx, cols. rewrite Ez by auto. destruct (use_mean P); [|reflexivity].
    f_equal. apply EwmaClosed.ewavg_ext. intros s Hs. apply Ez; lia.
  Qed.
End Closed.

Section Items.
  Variables (P : params (N := XR)) (f : frame time) (x : nat -> nat -> R) (hv hc h1 h2 : R) (rc : option R).
  Hypothesis HS : settings P hv hc h1 h2 rc.
  Hypothesis Hf : valid_returns f.
  Hypothesis Hx : returns_are false f x.
  Let n := length (fcols f).
  Let T := length (findex f).
  Let fp := first_pos (min_periods_vola P).
  Let K := kp P hv h1 rc (findex f) (fcols f) x.
  Hypothesis Hmv : forall j, (j < n)%nat -> exists s, (s <= fp)%nat /\ centred (use_mean P) h1 x j s <> 0.
  Hypothesis HT : (fp < T)%nat.

  Lemma n_pos : (0 < n)%nat.
  Proof. destruct Hf as (_ & _ & H). unfold n. destruct (fcols f); [congruence|simpl; lia]. Qed.
  Lemma K_all : K = seq fp (T - fp).
  Proof. destruct (Hmv 0%nat n_pos) as (s & Hs & Hy). exact (K_full P f x hv hc h1 h2 rc HS 0 s n_pos Hs Hy). Qed.
  Lemma iter_items : iterated_ewma P f =
    Ok (map (pitem P hv hc h1 h2 rc (findex f) (fcols f) x) (seq (min_periods_cov P - 1) (T - fp - (min_periods_cov P - 1)))).
  Proof.
    pose proof (settings_usable _ _ _ _ _ _ HS) as HU. pose proof (valid_good f Hf) as Hg.
    rewrite (returns_are_false f x Hf Hx) at 1.
    rewrite (iterated_ewma_ffin P hv hc h1 h2 rc HU (findex f) (fcols f) x n_pos (proj2 Hg)).
    fold K. rewrite K_all, seq_length, late_spec. destruct (T - fp)%nat eqn:E; [lia|reflexivity].
  Qed.
  Lemma item_time i : (i < T - fp)%nat -> itime (pitem P hv hc h1 h2 rc (findex f) (fcols f) x i) = nth (fp + i) (findex f) 0%Z.
  Proof. intros Hi. unfold pitem. cbn [itime]. unfold tm, kpos. fold K. rewrite K_all, seq_nth by auto. reflexivity. Qed.
  Lemma item_vol_len i : length (ivol (pitem P hv hc h1 h2 rc (findex f) (fcols f) x i)) = n.
  Proof. unfold pitem. cbn [ivol]. rewrite map_length, seq_length. reflexivity. Qed.
  Lemma vola_closed i j : (i < T - fp)%nat -> (j < n)%nat ->
    pv P hv h1 rc x j (kpos P hv h1 rc (findex f) (fcols f) x i) = xval (vol_at (pitem P hv hc h1 h2 rc (findex f) (fcols f) x i) j).
  Proof. intros Hi Hj. rewrite vol_at_pitem by exact Hj. reflexivity. Qed.
End Items.
