(** * from_ewmas followed by solve: no look-ahead in the returns (C120). *)
From Coq Require Import String List Bool ZArith Arith Lia Classical.
From Verif Require Import Num Py ListFacts Ewma EwmaTot EwmaPrefix Spec Combination SpecComb CombFacts CombBuild CombSolve CombRun CombProps FromEwmas SpecFrom FromEwmasProps.
Import ListNotations.

Lemma increasing_filter {B} (p : Z * B -> bool) l : increasing (map fst l) -> increasing (map fst (filter p l)).
Proof.
  induction l as [|a l IH]; intros H; [exact I|]. pose proof (IH (increasing_tail _ _ H)) as Hl. simpl.
  destruct (p a); auto. simpl. destruct (filter p l) as [|b r] eqn:E; [exact I|]. split; auto.
  pose proof (increasing_all_lt _ _ H) as HF. rewrite Forall_forall in HF. apply HF. change (In (fst b) (map fst l)). apply in_map.
  assert (In b (filter p l)) by (rewrite E; left; auto). apply filter_In in H0. tauto.
Qed.
Lemma incl_filter {B} (p : Z * B -> bool) l : incl (map fst (filter p l)) (map fst l).
Proof. intros t Ht. apply in_map_iff in Ht. destruct Ht as (a & <- & Ha). apply filter_In in Ha. apply in_map. tauto. Qed.

Section Times.
  Context {N : Num}.
  Definition subidx (g f : frame time) : Prop := (increasing (findex f) -> increasing (findex g)) /\ incl (findex g) (findex f).
  Lemma sub_refl f : subidx f f. Proof. split; auto. apply incl_refl. Qed.
  Lemma sub_trans f g h : subidx f g -> subidx g h -> subidx f h.
  Proof. intros [A1 A2] [B1 B2]. split; auto. eapply incl_tran; eauto. Qed.
  Lemma sub_same g f : findex g = findex f -> subidx g f.
  Proof. intros E. unfold subidx. rewrite E. split; auto. apply incl_refl. Qed.
  Lemma sub_dropna f : length (findex f) = length (fvals f) -> subidx (fdropna_all f) f.
  Proof.
    intros H. assert (E : map fst (combine (findex f) (fvals f)) = findex f) by (apply map_fst_combine; lia).
    split; simpl.
    - intros Hi. apply increasing_filter. rewrite E. auto.
    - intros t Ht. rewrite <- E. apply (incl_filter _ _ _ Ht).
  Qed.
  Lemma sub_center b m f : good f -> subidx (fst (center_tot b m f)) f.
  Proof.
    intros Hg. destruct m; [|apply sub_refl]. cbn [center_tot fst].
    eapply sub_trans; [apply sub_dropna|apply sub_same; reflexivity]. apply good_falign; auto.
  Qed.
  Lemma sub_clip c f : good f -> subidx (clip f c) f.
  Proof.
    intros Hg. unfold clip. destruct (truthy c).
    - eapply sub_trans; [apply sub_dropna|apply sub_same; reflexivity]. apply good_fmap; auto.
    - apply sub_dropna, Hg.
  Qed.
  Lemma sub_adj b1 bv b2 P f : good f -> subidx (adj_tot b1 bv b2 P f) f.
  Proof.
    intros Hg. assert (Hp : good (prep P f)) by (unfold prep; destruct (nan_to_num P); auto; apply good_fmap; auto).
    assert (Hr : good (ret_tot b1 P f)) by (apply good_center; auto).
    unfold adj_tot. eapply sub_trans; [apply sub_center|].
    - unfold adj0_tot, adjusted. apply good_fmap. unfold clip. destruct (truthy _); apply good_dropna; [apply good_fmap|]; apply good_falign; auto.
    - unfold adj0_tot, adjusted. eapply sub_trans; [apply sub_same; reflexivity|]. eapply sub_trans; [apply sub_clip, good_falign; auto|].
      eapply sub_trans; [apply sub_same; reflexivity|]. unfold ret_tot. eapply sub_trans; [apply sub_center; auto|].
      apply sub_same. unfold prep. destruct (nan_to_num P); reflexivity.
  Qed.

  (** The times of the items of a run: increasing dates of the returns. *)
  Lemma times_sub P f outs : nisnan nnan = true -> length (findex f) = length (fvals f) -> increasing (findex f) ->
    iterated_ewma P f = Ok outs -> increasing (map itime outs) /\ incl (map itime outs) (findex f).
  Proof.
    intros Hnan H1 H2 HO. assert (Hg : good f) by (split; auto; apply increasing_NoDup; auto).
    destruct (iterated_betas _ _ _ HO) as (b1 & bv & b2 & bc & Hb).
    rewrite (iterated_ewma_betas _ _ _ _ _ _ Hnan Hg Hb) in HO.
    destruct (isnil _); [discriminate|]. inversion HO; subst outs; clear HO.
    unfold it_tot. rewrite map_map. unfold item. cbn [itime]. unfold cov_tot. rewrite map_map. cbn [fst].
    destruct (good_adj b1 bv b2 P f Hg) as [E1 E2]. destruct (sub_adj b1 bv b2 P f Hg) as [S1 S2].
    pose proof (gen_tot_fst mmap mmap2 bc (fun x => outer x x) (min_periods_cov P) None (fvals (adj_tot b1 bv b2 P f)) (findex (adj_tot b1 bv b2 P f)) E1) as E3.
    split.
    - apply increasing_filter. rewrite E3. auto.
    - intros t Ht. apply S2. rewrite <- E3. apply (incl_filter _ _ _ Ht).
  Qed.
End Times.

(** Values of a dictionary, key by key. *)
Lemma values_eq {V W} (Q : string -> V -> W -> Prop) (d : kdict V) (d' : kdict W) :
  NoDup (map fst d) -> NoDup (map fst d') -> map fst d = map fst d' ->
  (forall k v w, dict_get String.eqb d k = Some v -> dict_get String.eqb d' k = Some w -> Q k v w) ->
  Forall2 (fun a b => fst a = fst b /\ Q (fst a) (snd a) (snd b)) d d'.
Proof.
  intros H1 H2 E H.
  assert (G : forall e e', map fst e = map fst e' -> incl e d -> incl e' d' -> Forall2 (fun a b => fst a = fst b /\ Q (fst a) (snd a) (snd b)) e e').
  { induction e as [|[k v] e IH]; intros [|[k' w] e'] Ee I1 I2; try discriminate; constructor.
    - cbn [map fst] in Ee. injection Ee as -> _. cbn [fst snd]. split; auto. apply H; apply kget_in; auto; [apply I1|apply I2]; left; auto.
    - injection Ee as _ Ee. apply IH; auto; intros x Hx; [apply I1|apply I2]; right; auto. }
  apply G; auto using incl_refl.
Qed.

Section Run.
  Context {N : Num} (LA : LinAlg) (label : option num * option num -> string)
          (to_mat : frame string -> l_mat LA) (to_vec : vec -> l_vec LA).
  Context (f : frame time) (k : nat) (pairs : list (option num * option num)) (mpv mpc : nat)
          (clip_at : option num) (mean : bool).
  Hypothesis Hnan : nisnan nnan = true.
  Hypothesis Hlen : length (findex f) = length (fvals f).
  Hypothesis Hinc : increasing (findex f).
  Hypothesis Hlab : forall p q, In p pairs -> In q pairs -> label p = label q -> p = q.
  Notation g := (frame_take k f).
  Notation run p h := (iterated_ewma (pair_params mpv mpc clip_at mean p) h).
  Notation comb_of h := (from_ewmas LA label to_mat to_vec h pairs mpv mpc clip_at mean).

  Lemma last_unique {V} (v : option num * option num -> V) p : In p pairs ->
    last_value (map (fun p => (label p, v p)) pairs) (label p) = Some (v p).
  Proof.
    intros Hp. destruct (last_value_key (map (fun p => (label p, v p)) pairs) (label p)) as (x & E).
    { rewrite map_map. apply in_map_iff. exists p; auto. }
    rewrite E. apply last_value_in, in_map_iff in E. destruct E as (q & E & Hq). injection E as E1 E2.
    rewrite (Hlab q p Hq Hp E1) in E2. congruence.
  Qed.
  Lemma runs_of h c : comb_of h = Ok c -> exists outs, forall p, In p pairs -> run p h = Ok (outs p).
  Proof.
    intros H. exists (fun p => match run p h with Ok o => o | Raise _ => [] end). intros p Hp.
    unfold from_ewmas, ewma_results in H.
    destruct (mapM _ pairs) as [r|] eqn:E; [|discriminate]. destruct (mapM_inv _ _ _ E p Hp) as (y & Ey).
    destruct (run p h); [auto|discriminate].
  Qed.
  Lemma glen : length (findex g) = length (fvals g). Proof. simpl. rewrite !firstn_length. lia. Qed.
  Lemma ginc : increasing (findex g).
  Proof. simpl. apply (increasing_app_l _ (skipn k (findex f))). rewrite firstn_skipn. auto. Qed.
  Lemma disj t : In t (findex g) -> In t (skipn k (findex f)) -> False.
  Proof.
    simpl. intros H1 H2. pose proof (increasing_NoDup _ Hinc) as Hn. rewrite <- (firstn_skipn k (findex f)) in Hn.
    eapply NoDup_app_disj; eauto.
  Qed.
  Lemma rows_take : rows_of_frame LA to_vec f = rows_of_frame LA to_vec g ++ combine (skipn k (findex f)) (map to_vec (skipn k (fvals f))).
  Proof.
    unfold rows_of_frame. simpl. rewrite <- combine_app.
    - rewrite firstn_skipn, <- map_app, firstn_skipn. auto.
    - rewrite map_length, !firstn_length. lia.
  Qed.
  Lemma rows_keys h : length (findex h) = length (fvals h) -> map fst (rows_of_frame LA to_vec h) = findex h.
  Proof. intros H. unfold rows_of_frame. apply map_fst_combine. rewrite map_length. lia. Qed.

  (** What the experts issue, as dictionaries, for one frame of returns. *)
  Definition issued (h : frame time) (outs : option num * option num -> list IEWMA) (sigmas : kdict (tdict (l_mat LA))) (means : kdict (tdict (l_vec LA))) : Prop :=
    comb_of h = from_sigmas LA sigmas (rows_of_frame LA to_vec h) (Some means) /\
    map fst sigmas = firsts (map label pairs) /\ map fst means = firsts (map label pairs) /\ dicts sigmas /\ dicts means /\
    (forall p, In p pairs -> dict_get String.eqb sigmas (label p) = Some (expert_covs LA to_mat (outs p)) /\
       dict_get String.eqb means (label p) = Some (expert_means LA to_vec (outs p))) /\
    (forall ks, In ks sigmas -> exists p, In p pairs /\ ks = (label p, expert_covs LA to_mat (outs p))).
  Lemma issue h outs : length (findex h) = length (fvals h) -> NoDup (findex h) ->
    (forall p, In p pairs -> run p h = Ok (outs p)) -> exists sigmas means, issued h outs sigmas means.
  Proof.
    intros H1 H2 H. destruct (is_from_sigmas LA label to_mat to_vec h pairs mpv mpc clip_at mean outs Hnan H1 H2 H) as
      (sigmas & means & E & K1 & K2 & D1 & D2 & G1 & G2 & _).
    exists sigmas, means. split; [auto|]. split; [auto|]. split; [auto|]. split; [auto|]. split; [auto|]. split.
    - intros p Hp. rewrite G1, G2. split; [apply (last_unique (fun p => expert_covs LA to_mat (outs p)))|apply (last_unique (fun p => expert_means LA to_vec (outs p)))]; auto.
    - intros [kk d] Hin. assert (Eg : dict_get String.eqb sigmas kk = Some d) by (apply kget_in; auto; apply D1).
      rewrite G1 in Eg. apply last_value_in, in_map_iff in Eg. destruct Eg as (p & Ep & Hp). exists p. split; auto.
  Qed.
  Lemma issued_times h outs sigmas means p : issued h outs sigmas means -> same_times LA sigmas -> In p pairs ->
    forall t, In t (map itime (outs p)) <-> In t (forecast_times LA sigmas).
  Proof.
    intros (_ & _ & _ & D1 & _ & G & _) Hs Hp t. destruct (G p Hp) as [G1 _]. apply kget_In in G1.
    rewrite <- (Hs _ t G1). cbn [snd]. unfold expert_covs. rewrite map_map. tauto.
  Qed.
  Lemma first_issued h outs sigmas means : issued h outs sigmas means -> sigmas <> [] ->
    exists p, In p pairs /\ forecast_times LA sigmas = map itime (outs p).
  Proof.
    intros (_ & _ & _ & _ & _ & _ & G) Hne. destruct sigmas as [|ks s]; [congruence|].
    destruct (G ks) as (p & Hp & ->); [left; auto|]. exists p. split; auto. simpl. unfold expert_covs. rewrite map_map. auto.
  Qed.

  Definition later (r : option (Result LA)) : Prop :=
    match r with Some r => In (r_time LA r) (skipn k (findex f)) | None => True end.

  Section Both.
    Context (outs outs' : option num * option num -> list IEWMA) (sigmas sigmas' : kdict (tdict (l_mat LA)))
            (means means' : kdict (tdict (l_vec LA))) (c' : comb LA).
    Hypothesis Ho : forall p, In p pairs -> run p g = Ok (outs p).
    Hypothesis Ho' : forall p, In p pairs -> run p f = Ok (outs' p).
    Hypothesis Hi : issued g outs sigmas means.
    Hypothesis Hi' : issued f outs' sigmas' means'.
    Hypothesis Hc' : comb_of f = Ok c'.

    Lemma more_of p : In p pairs -> exists more, outs' p = outs p ++ more /\ Forall (fun o => In (itime o) (skipn k (findex f))) more.
    Proof.
      intros Hp. pose proof (EwmaPrefix.no_look_ahead (pair_params mpv mpc clip_at mean p) f k Hnan Hlen (increasing_NoDup _ Hinc)) as H.
      rewrite (Ho p Hp) in H. destruct H as (more & E & F). exists more. split; auto. rewrite (Ho' p Hp) in E. congruence.
    Qed.
    Lemma early p t : In p pairs -> (In t (map itime (outs p)) <-> In t (map itime (outs' p)) /\ In t (findex g)).
    Proof.
      intros Hp. destruct (more_of p Hp) as (more & E & F). rewrite E, map_app, in_app_iff.
      destruct (times_sub _ _ _ Hnan glen ginc (Ho p Hp)) as [_ Hin]. split.
      - intros H. split; auto.
      - intros [[H|H] Hg]; auto. exfalso. apply in_map_iff in H. destruct H as (o & <- & Hm). rewrite Forall_forall in F.
        apply (disj _ Hg (F o Hm)).
    Qed.
    Lemma full_ok : same_times LA sigmas' /\ factors_exist LA sigmas' /\ c' = built LA sigmas' (rows_of_frame LA to_vec f) (Some means').
    Proof.
      destruct Hi' as (E & _ & _ & D & _). rewrite Hc' in E. symmetry in E.
      destruct (from_sigmas_inv LA _ _ _ _ D E) as (H1 & H2 & _ & H3). auto.
    Qed.
    Lemma part_ok : exists c, comb_of g = Ok c /\ same_times LA sigmas.
    Proof.
      destruct full_ok as (S' & F' & _). pose proof Hi as (E & K1 & K2 & D1 & D2 & G & G0).
      pose proof Hi' as (E' & K1' & K2' & D1' & D2' & G' & G0').
      assert (Hs : same_times LA sigmas).
      { intros ks t Hk. destruct (G0 ks Hk) as (p & Hp & ->). cbn [snd]. unfold expert_covs. rewrite map_map. cbn [fst].
        destruct (first_issued _ _ _ _ Hi) as (q & Hq & ->); [intros ->; destruct Hk|].
        rewrite (early p t Hp), (early q t Hq), (issued_times _ _ _ _ _ Hi' S' Hp), (issued_times _ _ _ _ _ Hi' S' Hq). tauto. }
      exists (built LA sigmas (rows_of_frame LA to_vec g) (Some means)). split; auto. rewrite E. apply from_sigmas_ok; auto.
      - intros ks tS Hk Ht. destruct (G0 ks Hk) as (p & Hp & ->). cbn [snd] in Ht. destruct (G' p Hp) as [G1 _]. apply kget_In in G1.
        apply (F' _ tS G1). cbn [snd]. destruct (more_of p Hp) as (more & -> & _). unfold expert_covs. rewrite map_app. apply in_or_app. auto.
      - intros ks Hk. destruct (G0 ks Hk) as (p & Hp & ->). cbn [fst snd]. destruct (G p Hp) as [_ G2]. exists (expert_means LA to_vec (outs p)).
        split; auto. intros t. unfold expert_covs, expert_means. rewrite !map_map. tauto.
    Qed.
    Lemma both_extend : extends sigmas sigmas' /\ extends means means'.
    Proof.
      pose proof Hi as (E & K1 & K2 & D1 & D2 & G & G0). pose proof Hi' as (E' & K1' & K2' & D1' & D2' & G' & G0').
      assert (Hlk : forall kk, In kk (firsts (map label pairs)) -> exists p, In p pairs /\ label p = kk).
      { intros kk H. apply (firsts_In (map label pairs)) in H. apply in_map_iff in H. destruct H as (p & <- & Hp). eauto. }
      split; unfold extends; eapply (values_eq (fun _ a b => exists ext, b = a ++ ext)).
      - apply D1. - apply D1'. - congruence.
      - intros kk v w Hv Hw. destruct (Hlk kk) as (p & Hp & <-). { rewrite <- K1. apply in_map_iff. exists (kk, v). split; auto. apply kget_In; auto. }
        destruct (G p Hp) as [G1 _]. destruct (G' p Hp) as [G1' _]. rewrite G1 in Hv. rewrite G1' in Hw. injection Hv as <-. injection Hw as <-.
        destruct (more_of p Hp) as (more & -> & _). unfold expert_covs. rewrite map_app. eauto.
      - apply D2. - apply D2'. - congruence.
      - intros kk v w Hv Hw. destruct (Hlk kk) as (p & Hp & <-). { rewrite <- K2. apply in_map_iff. exists (kk, v). split; auto. apply kget_In; auto. }
        destruct (G p Hp) as [_ G1]. destruct (G' p Hp) as [_ G1']. rewrite G1 in Hv. rewrite G1' in Hw. injection Hv as <-. injection Hw as <-.
        destruct (more_of p Hp) as (more & -> & _). unfold expert_means. rewrite map_app. eauto.
    Qed.
  End Both.

  Lemma known h outs sigmas means : length (findex h) = length (fvals h) -> increasing (findex h) ->
    (forall p, In p pairs -> run p h = Ok (outs p)) -> issued h outs sigmas means ->
    increasing (forecast_times LA sigmas) /\ incl (forecast_times LA sigmas) (findex h) /\ returns_known LA sigmas (rows_of_frame LA to_vec h).
  Proof.
    intros H1 H2 Ho Hi. assert (A : increasing (forecast_times LA sigmas) /\ incl (forecast_times LA sigmas) (findex h)).
    { destruct sigmas as [|ks s]; [split; [exact I|intros t []]|]. destruct (first_issued _ _ _ _ Hi) as (p & Hp & ->); [discriminate|].
      apply (times_sub _ _ _ Hnan H1 H2 (Ho p Hp)). }
    destruct A as [A1 A2]. split; auto. split; auto. intros t Ht. rewrite rows_keys by auto. apply A2.
    unfold scored in Ht. destruct (forecast_times LA sigmas); [destruct Ht|right; auto].
  Qed.

  Theorem run_no_look_ahead c' : comb_of f = Ok c' ->
    match comb_of g with
    | Ok c => forall p outs w slv items', In p pairs -> run p g = Ok outs -> 1 <= w < length outs ->
        solve LA slv c' (Some w) None = (items', None) ->
        exists items more, solve LA slv c (Some w) None = (items, None) /\ items' = items ++ more /\
          length items = length outs - w /\ Forall later more
    | Raise e => e = IndexError /\
        forall slv window items', solve LA slv c' window None = (items', None) -> Forall later items'
    end.
  Proof.
    intros Hc'. destruct (runs_of f c' Hc') as (outs' & Ho').
    destruct (issue f outs' Hlen (increasing_NoDup _ Hinc) Ho') as (sigmas' & means' & Hi').
    destruct (known f outs' sigmas' means' Hlen Hinc Ho' Hi') as (I1 & I2 & I3).
    pose proof Hi' as (E' & K1' & K2' & D1' & D2' & G' & G0'). rewrite Hc' in E'. symmetry in E'.
    destruct (from_sigmas_inv LA _ _ _ _ D1' E') as (S' & F' & M' & B').
    destruct (mapM_cases (fun p => run p g) pairs) as [(r & Er)|(p & e & Hp & Ee & _)].
    - set (outs := fun p => match run p g with Ok o => o | Raise _ => [] end).
      assert (Ho : forall p, In p pairs -> run p g = Ok (outs p)).
      { intros p Hp. unfold outs. destruct (mapM_inv _ _ _ Er p Hp) as (y & ->). auto. }
      destruct (issue g outs glen (increasing_NoDup _ ginc) Ho) as (sigmas & means & Hi).
      destruct (part_ok outs outs' sigmas sigmas' means means' c' Ho Ho' Hi Hi' Hc') as (c & Ec & Sc).
      destruct (both_extend outs outs' sigmas sigmas' means means' Ho Ho' Hi Hi') as (X1 & X2).
      destruct (known g outs sigmas means glen ginc Ho Hi) as (J1 & J2 & J3).
      pose proof Hi as (E & K1 & K2 & D1 & D2 & G & G0).
      rewrite Ec. rewrite Ec in E. symmetry in E. intros p o w slv items' Hp Eo Hw Hs.
      assert (o = outs p) by (rewrite (Ho p Hp) in Eo; congruence). subst o. clear Eo.
      assert (Lf : length (forecast_times LA sigmas) = length (outs p)).
      { rewrite <- (map_length itime (outs p)). apply Nat.le_antisymm; apply NoDup_incl_length.
        - apply increasing_NoDup; auto.
        - intros t Ht. apply (issued_times _ _ _ _ _ Hi Sc Hp). auto.
        - apply (times_nodup _ _ _ Hnan glen (increasing_NoDup _ ginc) (Ho p Hp)).
        - intros t Ht. apply (issued_times _ _ _ _ _ Hi Sc Hp). auto. }
      assert (E2 : from_sigmas LA sigmas' (rows_of_frame LA to_vec g ++ combine (skipn k (findex f)) (map to_vec (skipn k (fvals f)))) (Some means') = Ok c')
        by (rewrite <- rows_take; auto).
      rewrite rows_take in I3.
      destruct (CombProps.no_look_ahead LA sigmas (rows_of_frame LA to_vec g) (Some means) sigmas' _ (Some means') c c' slv w items'
        D1 D1' I1 X1 X2 E E2 J3 I3 ltac:(lia) Hs) as (items & more & R1 & R2 & R3).
      exists items, more. split; auto. split; auto. split; [lia|].
      destruct (extends_times LA sigmas sigmas' X1) as (ex & Ex).
      rewrite <- rows_take in I3.
      assert (L2 : 2 <= length (forecast_times LA sigmas')) by (rewrite Ex, app_length; lia).
      destruct (schedule LA sigmas' (rows_of_frame LA to_vec f) (Some means') c' slv (Some w) items' D1' E' I1 I3 L2 Hs) as (L3 & L4).
      assert (Ew : eff (length (forecast_times LA sigmas')) (Some w) = w) by (rewrite Ex, app_length; unfold eff; destruct w; lia).
      rewrite Ew in *. apply Forall_forall. intros [rr|] Hr; [|exact I]. simpl.
      apply In_nth_error in Hr. destruct Hr as (j & Hj).
      assert (Ej : nth_error items' (length items + j) = Some (Some rr)).
      { rewrite R2, nth_error_app2 by lia. replace (length items + j - length items) with j by lia. auto. }
      assert (Hlt : length items + j < length items') by (apply nth_error_Some; congruence).
      rewrite (L4 _ _ Ej). replace (w + (length items + j)) with (length (forecast_times LA sigmas) + j) by lia.
      rewrite Ex, app_nth2 by lia. replace (length (forecast_times LA sigmas) + j - length (forecast_times LA sigmas)) with j by lia.
      assert (Hjx : j < length ex) by (rewrite Ex, app_length in L3; lia).
      set (t := nth j ex 0%Z). assert (Ht : In t ex) by (apply nth_In; auto).
      assert (Hin : In t (findex f)) by (apply I2; rewrite Ex; apply in_or_app; auto).
      rewrite <- (firstn_skipn k (findex f)) in Hin. apply in_app_or in Hin. destruct Hin as [Hin|Hin]; auto. exfalso.
      assert (Hg : In t (map itime (outs p))).
      { apply (early outs outs' Ho Ho' p t Hp). split; auto. apply (issued_times _ _ _ _ _ Hi' S' Hp). rewrite Ex. apply in_or_app; auto. }
      apply (issued_times _ _ _ _ _ Hi Sc Hp) in Hg.
      pose proof (increasing_NoDup _ I1) as Hn. rewrite Ex in Hn. eapply NoDup_app_disj; eauto.
    - assert (Hall : exists q e, In q pairs /\ run q g = Raise e /\ comb_of g = Raise e).
      { destruct (mapM_cases (fun pair => do r <- run pair g; Ok (label pair, dict_of Z.eqb (map (fun o => (itime o, o)) r))) pairs)
          as [(r & E)|(q & e0 & Hq & E1 & E2)].
        - destruct (mapM_inv _ _ _ E p Hp) as (y & Ey). rewrite Ee in Ey. discriminate.
        - exists q, e0. split; auto. destruct (run q g) eqn:Eq; [discriminate|]. simpl in E1. injection E1 as ->. split; auto.
          unfold from_ewmas, ewma_results. rewrite E2. auto. }
      destruct Hall as (q & e0 & Hq & Eq & ->).
      pose proof (EwmaPrefix.no_look_ahead (pair_params mpv mpc clip_at mean q) f k Hnan Hlen (increasing_NoDup _ Hinc)) as HL.
      rewrite Eq in HL. destruct (HL _ (Ho' q Hq)) as (-> & FL). split; auto. intros slv window items' Hs.
      assert (Hfor : forall t, In t (forecast_times LA sigmas') -> In t (skipn k (findex f))).
      { intros t Ht. apply (issued_times _ _ _ _ _ Hi' S' Hq) in Ht. apply in_map_iff in Ht. destruct Ht as (o & <- & Hin).
        rewrite Forall_forall in FL. auto. }
      destruct (le_lt_dec 2 (length (forecast_times LA sigmas'))) as [L2|L2].
      + destruct (schedule LA sigmas' (rows_of_frame LA to_vec f) (Some means') c' slv window items' D1' E' I1 I3 L2 Hs) as (L3 & L4).
        apply Forall_forall. intros [rr|] Hr; [|exact I]. simpl. apply In_nth_error in Hr. destruct Hr as (j & Hj).
        rewrite (L4 _ _ Hj). apply Hfor, nth_In. assert (j < length items') by (apply nth_error_Some; congruence).
        set (w0 := eff _ _) in *. lia.
      + rewrite (CombProps.schedule_short LA _ _ _ _ _ _ D1' E') in Hs by lia. discriminate.
  Qed.
End Run.
