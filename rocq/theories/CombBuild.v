(** * combination.py: the constructor in closed form. *)
From Coq Require Import String List Bool ZArith Arith Lia.
From Verif Require Import Num Py ListFacts Combination SpecComb CombFacts.
Import ListNotations.

Section Build.
  Context (LA : LinAlg).
  Notation sigmas_t := (kdict (tdict (l_mat LA))).
  Notation means_t := (kdict (tdict (l_vec LA))).
  Notation returns_t := (tdict (l_vec LA)).
  Implicit Types (sigmas : sigmas_t) (means : option means_t) (returns : returns_t).

  Notation means_ok := (SpecComb.means_ok LA).

  Lemma same_keys_iff {A B} (a : tdict A) (b : tdict B) :
    same_keys a b = true <-> (forall t, In t (map fst a) <-> In t (map fst b)).
  Proof.
    unfold same_keys. rewrite andb_true_iff, !forallb_forall. split.
    - intros [H1 H2] t; split; intros H; [apply H1 in H|apply H2 in H]; apply mem_In in H; auto.
    - intros H; split; intros t Ht; apply mem_In, H; auto.
  Qed.

  Definition means_full sigmas means : means_t :=
    match means with
    | Some m => m
    | None => map (fun ks => (fst ks, map (fun ts => (fst ts, l_vec0 LA)) (snd ks))) sigmas
    end.

  Lemma means_of_ok sigmas means : means_ok sigmas means ->
    means_of LA sigmas means = Ok (means_full sigmas means).
  Proof.
    unfold means_ok, means_of, means_full. destruct means as [m|]; auto. intros H.
    rewrite (mapM_ok _ (fun _ => tt)); auto.
    intros ks Hk. destruct (H ks Hk) as (mk & -> & E). simpl. apply same_keys_iff in E. rewrite E; auto.
  Qed.

  Lemma means_of_inv sigmas means m : means_of LA sigmas means = Ok m -> means_ok sigmas means.
  Proof.
    unfold means_ok, means_of. destruct means as [m'|]; auto. intros H ks Hk.
    destruct (mapM _ sigmas) as [l|] eqn:E; simpl in H; [|discriminate].
    destruct (mapM_inv _ _ _ E ks Hk) as (y & Ey).
    destruct (dict_get String.eqb m' (fst ks)) as [mk|]; simpl in Ey; [|discriminate].
    exists mk. split; auto. destruct (same_keys (snd ks) mk) eqn:E2; [|discriminate].
    apply same_keys_iff; auto.
  Qed.

  (** The factors of one expert. *)
  Definition chol_dict (d : tdict (l_mat LA)) : tdict (l_mat LA) :=
    map (fun ts => (fst ts, match precision_factor LA (snd ts) with Some L => L | None => l_zeroM LA end)) d.

  Lemma cholesky_precision_eq (d : tdict (l_mat LA)) :
    (forall ts, In ts d -> precision_factor LA (snd ts) <> None) ->
    cholesky_precision LA d = Ok (chol_dict d).
  Proof.
    intros H. unfold cholesky_precision, chol_dict. apply mapM_ok. intros ts Hts.
    specialize (H ts Hts). unfold precision_factor in *.
    destruct (l_inv LA (snd ts)) as [J|]; simpl; [|tauto]. destruct (l_chol LA J) as [L|]; simpl; tauto.
  Qed.
  Lemma cholesky_precision_raise (d : tdict (l_mat LA)) :
    (exists ts, In ts d /\ precision_factor LA (snd ts) = None) ->
    cholesky_precision LA d = Raise LinAlgError.
  Proof.
    intros (ts & H1 & H2). unfold cholesky_precision. apply mapM_raise.
    - exists ts; split; auto. unfold precision_factor in H2.
      destruct (l_inv LA (snd ts)) as [J|]; simpl; auto. rewrite H2; auto.
    - intros x e' Hx E. destruct (l_inv LA (snd x)) as [J|]; simpl in E; [|congruence].
      destruct (l_chol LA J); simpl in E; congruence.
  Qed.

  Lemma chols_eq sigmas : factors_exist LA sigmas ->
    mapM (fun ks => do L <- cholesky_precision LA (snd ks); Ok (fst ks, L)) sigmas =
    Ok (map (fun ks => (fst ks, chol_dict (snd ks))) sigmas).
  Proof.
    intros H. apply mapM_ok. intros ks Hk. rewrite cholesky_precision_eq; [reflexivity|].
    intros ts Ht. apply (H ks ts); auto.
  Qed.

  Lemma chols_inv sigmas r :
    mapM (fun ks => do L <- cholesky_precision LA (snd ks); Ok (fst ks, L)) sigmas = Ok r ->
    factors_exist LA sigmas.
  Proof.
    intros H ks ts Hk Ht E. destruct (mapM_inv _ _ _ H ks Hk) as (y & Ey).
    rewrite cholesky_precision_raise in Ey; [discriminate|eauto].
  Qed.
  Lemma chols_raise sigmas : ~ factors_exist LA sigmas ->
    mapM (fun ks => do L <- cholesky_precision LA (snd ks); Ok (fst ks, L)) sigmas = Raise LinAlgError.
  Proof.
    intros H. destruct (mapM_cases (fun ks => do L <- cholesky_precision LA (snd ks); Ok (fst ks, L)) sigmas)
      as [(r & E)|(x & e & Hx & E & ->)].
    - apply chols_inv in E; tauto.
    - f_equal. unfold cholesky_precision in E.
      destruct (mapM_cases (fun item : Z * l_mat LA => do i <- or_raise (l_inv LA (snd item)) LinAlgError;
         do L <- or_raise (l_chol LA i) LinAlgError; Ok (fst item, L)) (snd x)) as [(r & E2)|(y & e2 & Hy & E2 & E3)].
      + rewrite E2 in E. discriminate.
      + rewrite E3 in E. simpl in E. inversion E; subst.
        destruct (l_inv LA (snd y)); simpl in E2; [|congruence]. destruct (l_chol LA _); simpl in E2; congruence.
  Qed.

  Lemma chol_dict_keys d : map fst (chol_dict d) = map fst d.
  Proof. unfold chol_dict. rewrite map_map. reflexivity. Qed.

  Lemma chol_dict_get d t : 
    dict_get Z.eqb (chol_dict d) t =
    match dict_get Z.eqb d t with
    | Some Sg => Some (match precision_factor LA Sg with Some L => L | None => l_zeroM LA end)
    | None => None end.
  Proof. induction d as [|[u Sg] d IH]; simpl; auto. destruct (t =? u)%Z; auto. Qed.

  Lemma factor_get sigmas ks t : NoDup (map fst sigmas) -> In ks sigmas -> In t (map fst (snd ks)) ->
    dict_get Z.eqb (chol_dict (snd ks)) t = Some (factor LA sigmas (fst ks) t).
  Proof.
    intros Hn Hk Ht. rewrite chol_dict_get. unfold factor.
    destruct ks as [k d]. cbn [fst snd] in *. rewrite (kget_in _ _ _ Hn Hk).
    destruct (dict_get_key _ _ Ht) as (Sg & ->). auto.
  Qed.

  Definition keys_of sigmas := map fst sigmas.

  (** The combination object in closed form. *)
  Definition built sigmas returns means : comb LA :=
    let idx := forecast_times LA sigmas in
    let keys := map fst sigmas in
    let nu k t := l_tmulv LA (factor LA sigmas k t) (mean_at LA means k t) in
    mkComb LA sigmas returns
      (tab keys idx (factor LA sigmas))
      (tab keys (tl idx) (fun k t => factor LA sigmas k (prev idx t)))
      (tab keys idx nu)
      (tab keys (tl idx) (fun k t => nu k (prev idx t))).

  Lemma forecast_nodup sigmas : dicts sigmas -> NoDup (forecast_times LA sigmas).
  Proof.
    intros [_ H]. destruct sigmas as [|ks s]; simpl; [constructor|]. inversion H; auto.
  Qed.

  Lemma Ls_tab sigmas : dicts sigmas -> same_times LA sigmas ->
    df_of_dicts (map (fun ks => (fst ks, chol_dict (snd ks))) sigmas) =
    tab (map fst sigmas) (forecast_times LA sigmas) (factor LA sigmas).
  Proof.
    intros Hd Hs. rewrite df_tab with (idx := forecast_times LA sigmas) (f := factor LA sigmas).
    - rewrite map_map. reflexivity.
    - apply forecast_nodup; auto.
    - destruct sigmas as [|ks s]; simpl; auto. apply chol_dict_keys.
    - intros kd H. apply in_map_iff in H. destruct H as (ks & <- & Hk). cbn [snd].
      rewrite chol_dict_keys. intros t Ht. apply (Hs ks); auto.
    - intros kd t H Ht. apply in_map_iff in H. destruct H as (ks & <- & Hk). cbn [fst snd].
      apply factor_get; auto. apply Hd. apply (Hs ks); auto.
  Qed.

  Lemma keys_nil sigmas : map fst sigmas = [] -> forecast_times LA sigmas = [].
  Proof. destruct sigmas; simpl; auto; discriminate. Qed.

  Lemma mean_get sigmas means ks : dicts sigmas -> means_ok sigmas means ->
    In ks sigmas -> exists mk, dict_get String.eqb (means_full sigmas means) (fst ks) = Some mk /\
      forall t, In t (map fst (snd ks)) -> dict_get Z.eqb mk t = Some (mean_at LA means (fst ks) t).
  Proof.
    intros Hd Hm Hk. unfold means_ok, means_full, mean_at in *. destruct means as [m|].
    - destruct (Hm ks Hk) as (mk & E & H). exists mk. split; auto. intros t Ht. rewrite E.
      apply H in Ht. destruct (dict_get_key _ _ Ht) as (v & ->). auto.
    - exists (map (fun ts => (fst ts, l_vec0 LA)) (snd ks)). split.
      + apply kget_in; [rewrite map_map; apply Hd|]. apply in_map_iff. exists ks; auto.
      + intros t Ht. generalize (snd ks) Ht. intros l; induction l as [|[u Sg] l IH]; simpl; [tauto|].
        intros H. destruct (Z.eqb_spec t u); auto. apply IH. destruct H; congruence || auto.
  Qed.

  Theorem from_sigmas_ok sigmas returns means :
    dicts sigmas -> same_times LA sigmas -> factors_exist LA sigmas -> means_ok sigmas means ->
    from_sigmas LA sigmas returns means = Ok (built sigmas returns means).
  Proof.
    intros Hd Hs Hf Hm. unfold from_sigmas. rewrite means_of_ok by auto. cbn [bind].
    rewrite chols_eq by auto. cbn [bind]. rewrite Ls_tab by auto.
    set (idx := forecast_times LA sigmas).
    set (nu := fun k t => l_tmulv LA (factor LA sigmas k t) (mean_at LA means k t)).
    assert (Hn : NoDup idx) by (apply forecast_nodup; auto).
    assert (E : forall g, (forall ks, In ks sigmas -> g (fst ks, map (fun t => Some (factor LA sigmas (fst ks) t)) idx)
        = Ok (fst ks, map (fun t => (t, nu (fst ks) t)) idx)) ->
       mapM g (o_cols (tab (map fst sigmas) idx (factor LA sigmas)))
       = Ok (map (fun k => (k, map (fun t => (t, nu k t)) idx)) (map fst sigmas))).
    { intros g Hg. unfold tab. cbn [o_cols]. rewrite mapM_map, mapM_map.
      rewrite (mapM_ok _ (fun ks => (fst ks, map (fun t => (t, nu (fst ks) t)) idx))).
      - rewrite map_map. reflexivity.
      - intros ks Hk. apply Hg; auto. }
    rewrite E; clear E.
    - cbn [bind]. rewrite df_tabulated by (auto; apply keys_nil).
      rewrite !shift_dropna_tab by (auto; apply keys_nil). reflexivity.
    - intros ks Hk. cbn [fst snd].
      destruct (mean_get sigmas means ks Hd Hm Hk) as (mk & -> & Hmk). cbn [or_raise bind].
      unfold nu_, ocol_items, tab. cbn [o_idx]. rewrite items_tab, mapM_map.
      rewrite (mapM_ok _ (fun t => (t, nu (fst ks) t))); [reflexivity|].
      intros t Ht. cbn [fst snd or_raise bind]. rewrite Hmk; [reflexivity|]. apply (Hs ks); auto.
  Qed.

  (** Experts that do not cover the same times: AttributeError. *)
  Lemma same_times_dec sigmas : {same_times LA sigmas} + {~ same_times LA sigmas}.
  Proof.
    set (ft := forecast_times LA sigmas).
    destruct (forallb (fun ks => forallb (fun t => mem t ft) (map fst (snd ks)) && forallb (fun t => mem t (map fst (snd ks))) ft) sigmas) eqn:E.
    - left. rewrite forallb_forall in E. intros ks t Hk. specialize (E ks Hk). apply andb_true_iff in E.
      rewrite !forallb_forall in E. destruct E as [E1 E2]. split; intros H; [apply E1 in H|apply E2 in H]; apply mem_In; auto.
    - right. intros Hs. assert (forallb (fun ks => forallb (fun t => mem t ft) (map fst (snd ks)) && forallb (fun t => mem t (map fst (snd ks))) ft) sigmas = true); [|congruence].
      apply forallb_forall. intros ks Hk. apply andb_true_iff. rewrite !forallb_forall. split; intros t Ht; apply mem_In; apply (Hs ks t Hk); auto.
  Qed.

  Theorem from_sigmas_misaligned sigmas returns means :
    dicts sigmas -> means_ok sigmas means -> factors_exist LA sigmas -> ~ same_times LA sigmas ->
    from_sigmas LA sigmas returns means = Raise AttributeError.
  Proof.
    intros Hd Hm Hf Hs. unfold from_sigmas. rewrite means_of_ok by auto. cbn [bind].
    rewrite chols_eq by auto. cbn [bind].
    set (Ls := df_of_dicts _).
    match goal with |- context [mapM ?gg (o_cols Ls)] => set (g := gg) end.
    assert (E : mapM g (o_cols Ls) = Raise AttributeError); [|rewrite E; reflexivity].
    assert (Hidx : forall t, In t (o_idx Ls) <-> exists ks, In ks sigmas /\ In t (map fst (snd ks))).
    { intros t. unfold Ls, df_of_dicts. cbn [o_idx]. rewrite uniq_In, in_concat. split.
      - intros (l & Hl & Ht). rewrite map_map in Hl. apply in_map_iff in Hl. destruct Hl as (ks & <- & Hk).
        cbn [snd] in Ht. rewrite chol_dict_keys in Ht. eauto.
      - intros (ks & Hk & Ht). exists (map fst (snd ks)). split; auto. rewrite map_map. apply in_map_iff.
        exists ks. cbn [snd]. rewrite chol_dict_keys. auto. }
    assert (Hcols : o_cols Ls = map (fun ks => (fst ks, map (fun t => dict_get Z.eqb (chol_dict (snd ks)) t) (o_idx Ls))) sigmas).
    { unfold Ls, df_of_dicts. cbn [o_cols o_idx]. rewrite map_map. reflexivity. }
    rewrite Hcols, mapM_map.
    assert (Hg : forall ks, In ks sigmas ->
        (exists r, g (fst ks, map (fun t => dict_get Z.eqb (chol_dict (snd ks)) t) (o_idx Ls)) = Ok r) /\ (forall t, In t (o_idx Ls) -> In t (map fst (snd ks)))
        \/ g (fst ks, map (fun t => dict_get Z.eqb (chol_dict (snd ks)) t) (o_idx Ls)) = Raise AttributeError /\
           ~ (forall t, In t (o_idx Ls) -> In t (map fst (snd ks)))).
    { intros ks Hk. unfold g. cbn [fst snd].
      destruct (mean_get sigmas means ks Hd Hm Hk) as (mk & -> & Hmk). cbn [or_raise bind].
      unfold nu_, ocol_items.
      assert (Ei : combine (o_idx Ls) (map (fun t => dict_get Z.eqb (chol_dict (snd ks)) t) (o_idx Ls))
                   = map (fun t => (t, dict_get Z.eqb (chol_dict (snd ks)) t)) (o_idx Ls)).
      { clear. induction (o_idx Ls); simpl; auto. f_equal; auto. }
      rewrite Ei, mapM_map. cbn [fst snd].
      assert (Hc : forall t e', (do L <- or_raise (dict_get Z.eqb (chol_dict (snd ks)) t) AttributeError;
                  do m <- or_raise (dict_get Z.eqb mk t) KeyError; Ok (t, l_tmulv LA L m)) = Raise e' ->
                  e' = AttributeError /\ ~ In t (map fst (snd ks))).
      { intros t e'. destruct (dict_get Z.eqb (chol_dict (snd ks)) t) as [L|] eqn:EL; cbn [or_raise bind].
        - assert (Ht : In t (map fst (snd ks))).
          { destruct (in_dec Z.eq_dec t (map fst (snd ks))) as [i|i]; auto. rewrite <- chol_dict_keys in i.
            apply dict_get_none in i. congruence. }
          rewrite (Hmk t Ht). discriminate.
        - intros H. inversion H; subst. split; auto. apply dict_get_none in EL. rewrite chol_dict_keys in EL. auto. }
      match goal with |- context [mapM ?h (o_idx Ls)] => destruct (mapM_cases h (o_idx Ls)) as [(r & Er)|(t & e & Ht & Et & Er)] end.
      - rewrite Er. left. split; [eexists; reflexivity|]. intros t Ht.
        destruct (mapM_inv _ _ _ Er t Ht) as (y & Ey).
        destruct (dict_get Z.eqb (chol_dict (snd ks)) t) eqn:EL; [|discriminate].
        rewrite <- chol_dict_keys. apply dict_get_In in EL. apply in_map_iff. eexists; split; [|exact EL]. reflexivity.
      - right. rewrite Er. destruct (Hc t e Et) as [-> Hn]. split; [reflexivity|]. auto. }
    apply mapM_raise.
    - (* some expert misses a time of the union *)
      destruct (forallb (fun ks => forallb (fun t => mem t (map fst (snd ks))) (o_idx Ls)) sigmas) eqn:Eall.
      + exfalso. apply Hs. rewrite forallb_forall in Eall. intros ks t Hk.
        assert (Hfirst : In t (forecast_times LA sigmas) <-> In t (o_idx Ls)).
        { rewrite Hidx. destruct sigmas as [|k0 s0]; [destruct Hk|]. cbn [forecast_times]. split.
          - intros H. exists k0. simpl; auto.
          - intros H. apply Hidx in H. specialize (Eall k0 (or_introl eq_refl)). rewrite forallb_forall in Eall.
            apply Eall in H. apply mem_In; auto. }
        rewrite Hfirst. split; intros H.
        * apply Hidx. eauto.
        * specialize (Eall ks Hk). rewrite forallb_forall in Eall. apply mem_In. auto.
      + assert (Hex : exists ks, In ks sigmas /\ forallb (fun t => mem t (map fst (snd ks))) (o_idx Ls) = false).
        { generalize dependent (o_idx Ls). intros ll _ _ _ Eall. clear -Eall. induction sigmas as [|k s IH]; simpl in Eall; [discriminate|].
          apply andb_false_iff in Eall. destruct Eall as [H|H]; [exists k; simpl; auto|].
          destruct (IH H) as (ks & H1 & H2). exists ks; simpl; auto. }
        destruct Hex as (ks & Hk & Hbad). exists ks. split; auto.
        destruct (Hg ks Hk) as [[_ H]|[H _]]; auto. exfalso.
        assert (forallb (fun t => mem t (map fst (snd ks))) (o_idx Ls) = true); [|congruence].
        apply forallb_forall. intros t Ht. apply mem_In. auto.
    - intros ks e' Hk E. destruct (Hg ks Hk) as [[[r H] _]|[H _]]; rewrite H in E; [discriminate|congruence].
  Qed.

  (** Complete case analysis of the constructor. *)
  Theorem from_sigmas_inv sigmas returns means c :
    dicts sigmas -> from_sigmas LA sigmas returns means = Ok c ->
    same_times LA sigmas /\ factors_exist LA sigmas /\ means_ok sigmas means /\ c = built sigmas returns means.
  Proof.
    intros Hd H. assert (Hm : means_ok sigmas means).
    { unfold from_sigmas in H. destruct (means_of LA sigmas means) eqn:E; simpl in H; [|discriminate].
      eapply means_of_inv; eauto. }
    assert (Hf : factors_exist LA sigmas).
    { unfold from_sigmas in H. rewrite means_of_ok in H by auto. simpl in H.
      destruct (mapM (fun ks => do L <- cholesky_precision LA (snd ks); Ok (fst ks, L)) sigmas) eqn:E.
      - eapply chols_inv; eauto.
      - simpl in H; discriminate. }
    destruct (same_times_dec sigmas) as [Hs|Hs].
    - rewrite from_sigmas_ok in H by auto. inversion H; auto.
    - rewrite from_sigmas_misaligned in H by auto. discriminate.
  Qed.

  Theorem from_sigmas_singular sigmas returns means :
    means_ok sigmas means -> ~ factors_exist LA sigmas ->
    from_sigmas LA sigmas returns means = Raise LinAlgError.
  Proof.
    intros Hm Hf. unfold from_sigmas. rewrite means_of_ok by auto. simpl. rewrite chols_raise by auto. auto.
  Qed.

  Theorem from_sigmas_means_bad sigmas returns m :
    (forall ks, In ks sigmas -> dict_get String.eqb m (fst ks) <> None) -> ~ means_ok sigmas (Some m) ->
    from_sigmas LA sigmas returns (Some m) = Raise AssertionError.
  Proof.
    intros Hk Hm. unfold from_sigmas, means_of.
    match goal with |- context [mapM ?g sigmas] => destruct (mapM_cases g sigmas) as [(r & E)|(x & e & Hx & E & E2)] end.
    - exfalso. apply Hm. apply (means_of_inv sigmas (Some m) m). unfold means_of. rewrite E. auto.
    - rewrite E2. simpl. f_equal. destruct (dict_get String.eqb m (fst x)) as [mk|] eqn:Em; [|exfalso; eapply Hk; eauto].
      simpl in E. destruct (same_keys (snd x) mk); congruence.
  Qed.
  Theorem from_sigmas_means_missing sigmas returns m :
    (exists ks, In ks sigmas /\ dict_get String.eqb m (fst ks) = None) ->
    (forall ks mk, In ks sigmas -> dict_get String.eqb m (fst ks) = Some mk ->
        forall t, In t (map fst (snd ks)) <-> In t (map fst mk)) ->
    from_sigmas LA sigmas returns (Some m) = Raise KeyError.
  Proof.
    intros (k0 & H1 & H2) H. unfold from_sigmas, means_of.
    match goal with |- context [mapM ?g sigmas] => assert (E : mapM g sigmas = Raise KeyError) end.
    { apply mapM_raise.
      - exists k0. rewrite H2. auto.
      - intros ks e Hk. destruct (dict_get String.eqb m (fst ks)) as [mk|] eqn:E; simpl; [|congruence].
        pose proof (H ks mk Hk E) as E2. apply same_keys_iff in E2. rewrite E2. discriminate. }
    rewrite E. reflexivity.
  Qed.
End Build.
