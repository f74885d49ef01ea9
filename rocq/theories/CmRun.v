(** * The CM-IEWMA cell of the experiments: what it hands to the combination, no look-ahead (C123). *)
From Coq Require Import String List Bool ZArith Arith Lia.
From Verif Require Import Num Py ListFacts Ewma EwmaTot EwmaPrefix Spec Combination SpecComb CombFacts CombBuild CombSolve CombRun CombProps FromEwmas SpecFrom FromEwmasProps FromRun CmIewma EwmaAny.
Import ListNotations.

Lemma kset_nested {V} (d : kdict V) k v : NoDup (map fst d) -> In k (map fst d) ->
  NoDup (map fst (dict_set String.eqb d k v)) /\ map fst (dict_set String.eqb d k v) = map fst d.
Proof.
  intros H1 H2. rewrite kset_keys. assert (E : existsb (String.eqb k) (map fst d) = true).
  { apply existsb_exists. exists k. split; auto. apply String.eqb_refl. }
  rewrite E, app_nil_r. auto.
Qed.

Lemma skipn_twice {A} (l : list A) a b : skipn a (skipn b l) = skipn (a + b) l.
Proof. revert l. induction b as [|b IH]; intros l; [rewrite Nat.add_0_r; auto|]. rewrite Nat.add_succ_r. destruct l; [rewrite !skipn_nil; auto|]. apply IH. Qed.

Section Cm.
  Context {N : Num} (LA : LinAlg) (label : option num * option num -> string)
          (to_mat : frame string -> l_mat LA) (to_vec : vec -> l_vec LA) (reg : l_mat LA -> l_mat LA).
  Context (fast : option num * option num) (rest : list (option num * option num)) (mpv mpc : nat).
  Notation pairs := (fast :: rest).
  Hypothesis Hnan : nisnan nnan = true.
  Hypothesis Hlab : forall p q, In p pairs -> In q pairs -> label p = label q -> p = q.
  Notation run p h := (iterated_ewma (pair_params mpv mpc None false p) h).
  Notation build h := (cm_build LA label to_mat to_vec reg h pairs mpv mpc).
  Notation cell slv h window := (cm_iewma LA label to_mat to_vec reg slv h pairs mpv mpc window).

  (** What the expert of a pair contributes. *)
  Definition cm_mat (p : option num * option num) (o : IEWMA) : l_mat LA :=
    if String.eqb (label p) (label fast) then reg (to_mat (icov o)) else to_mat (icov o).
  Definition cm_covs (p : option num * option num) (outs : list IEWMA) : tdict (l_mat LA) := map (fun o => (itime o, cm_mat p o)) outs.

  Definition cm_issued (h : frame time) (outs : option num * option num -> list IEWMA) (sigmas : kdict (tdict (l_mat LA))) : Prop :=
    cm_sigmas LA label to_mat reg h pairs mpv mpc = Ok sigmas /\
    map fst sigmas = firsts (map label pairs) /\ dicts sigmas /\
    (forall p, In p pairs -> dict_get String.eqb sigmas (label p) = Some (cm_covs p (outs p))) /\
    (forall ks, In ks sigmas -> exists p, In p pairs /\ ks = (label p, cm_covs p (outs p))).

  Lemma cm_issue h outs : length (findex h) = length (fvals h) -> NoDup (findex h) ->
    (forall p, In p pairs -> run p h = Ok (outs p)) -> exists sigmas, cm_issued h outs sigmas.
  Proof.
    intros H1 H2 Ho. assert (Hn : forall p, In p pairs -> NoDup (map itime (outs p))) by (intros p Hp; eapply times_nodup; eauto).
    set (results := dict_of String.eqb (map (fun p => (label p, map (fun o => (itime o, o)) (outs p))) pairs)).
    set (s0 := map_nested_dicts results (fun r => to_mat (icov r))).
    assert (K0 : map fst s0 = firsts (map label pairs)).
    { unfold s0. rewrite nested_keys. unfold results. rewrite dict_of_keys, map_map. reflexivity. }
    assert (G0 : forall p, In p pairs -> dict_get String.eqb s0 (label p) = Some (expert_covs LA to_mat (outs p))).
    { intros p Hp. unfold s0. rewrite nested_get. unfold results. rewrite dict_of_get.
      rewrite (last_unique label pairs Hlab (fun p => map (fun o => (itime o, o)) (outs p)) p Hp). simpl. rewrite map_map. auto. }
    assert (Hin : In fast pairs) by (left; auto).
    set (s := dict_set String.eqb s0 (label fast) (cm_covs fast (outs fast))).
    assert (Hk : In (label fast) (map fst s0)) by (rewrite K0; apply firsts_In; left; auto).
    destruct (kset_nested s0 (label fast) (cm_covs fast (outs fast))) as [Nd Ks]; auto.
    { rewrite K0. apply firsts_NoDup. }
    assert (G : forall p, In p pairs -> dict_get String.eqb s (label p) = Some (cm_covs p (outs p))).
    { intros p Hp. unfold s. rewrite kset_get. destruct (String.eqb_spec (label p) (label fast)) as [E|E].
      - apply Hlab in E; auto. subst p. auto.
      - rewrite G0 by auto. f_equal. unfold expert_covs, cm_covs, cm_mat. destruct (String.eqb_spec (label p) (label fast)); [tauto|]. auto. }
    assert (All : forall ks, In ks s -> exists p, In p pairs /\ ks = (label p, cm_covs p (outs p))).
    { intros [kk d] Hd. assert (In kk (firsts (map label pairs))) by (rewrite <- K0, <- Ks; apply in_map_iff; exists (kk, d); auto).
      apply firsts_In, in_map_iff in H. destruct H as (p & <- & Hp). exists p. split; auto. f_equal.
      pose proof (kget_in _ _ _ Nd Hd) as E. rewrite G in E by auto. congruence. }
    exists s. split; [|split; [|split; [|split]]]; auto.
    - unfold cm_sigmas. rewrite (results_dict label h pairs mpv mpc None false outs Ho Hn). cbn [bind nth_error or_raise].
      fold results s0. rewrite (G0 fast Hin). cbn [or_raise bind]. f_equal.
      unfold s. f_equal. unfold expert_covs, cm_covs. rewrite map_map. apply map_ext. intros o. unfold cm_mat. rewrite String.eqb_refl. auto.
    - unfold s; rewrite Ks; exact K0.
    - split; auto. apply Forall_forall. intros ks Hd. destruct (All ks Hd) as (p & Hp & ->). cbn [snd]. unfold cm_covs. rewrite map_map. apply Hn; auto.
  Qed.
  Lemma cm_times h outs sigmas p : cm_issued h outs sigmas -> same_times LA sigmas -> In p pairs ->
    forall t, In t (map itime (outs p)) <-> In t (forecast_times LA sigmas).
  Proof.
    intros (_ & _ & D1 & G & _) Hs Hp t. pose proof (G p Hp) as G1. apply kget_In in G1.
    rewrite <- (Hs _ t G1). cbn [snd]. unfold cm_covs. rewrite map_map. tauto.
  Qed.
  Lemma cm_first h outs sigmas : cm_issued h outs sigmas -> sigmas <> [] /\ forecast_times LA sigmas = map itime (outs fast).
  Proof.
    intros (_ & K & _ & G & A). destruct sigmas as [|ks s]; [discriminate|]. split; [discriminate|].
    destruct (A ks) as (p & Hp & ->); [left; auto|]. simpl in K. injection K as K _. apply Hlab in K; [|auto|left; auto]. subst p.
    simpl. unfold cm_covs. rewrite map_map. auto.
  Qed.
  Lemma cm_built h outs sigmas : cm_issued h outs sigmas -> build h = from_sigmas LA sigmas (rows_of_frame LA to_vec h) None.
  Proof. intros (E & _). unfold cm_build. rewrite E. auto. Qed.
  Lemma cm_runs h c : build h = Ok c -> exists outs, forall p, In p pairs -> run p h = Ok (outs p).
  Proof.
    intros H. exists (fun p => match run p h with Ok o => o | Raise _ => [] end). intros p Hp.
    unfold cm_build, cm_sigmas, ewma_results in H.
    destruct (mapM _ pairs) as [r|] eqn:E; [|discriminate]. destruct (mapM_inv _ _ _ E p Hp) as (y & Ey).
    destruct (run p h); [auto|discriminate].
  Qed.

  (** The two dictionaries of the cell. *)
  Lemma cell_inv slv h window covs weights : cell slv h window = Ok (covs, weights) ->
    exists c items, build h = Ok c /\ solve LA slv c window None = (map Some items, None) /\
      covs = dict_of Z.eqb (map (fun r => (r_time LA r, r_cov LA r)) items) /\ weights = dict_of Z.eqb (map (fun r => (r_time LA r, r_weights LA r)) items).
  Proof.
    unfold cm_iewma. destruct (build h) as [c|] eqn:E; [|discriminate]. cbn [bind]. destruct (solve LA slv c window None) as [its [e|]] eqn:Es; [discriminate|].
    destruct (mapM _ its) as [rs|] eqn:Em; [|discriminate]. cbn [bind]. intros H. injection H as <- <-.
    exists c, rs. split; auto. split; auto. rewrite Es. f_equal. clear Es. revert rs Em. induction its as [|a its IH]; simpl; intros rs Em.
    - injection Em as <-. auto.
    - destruct a as [r|]; [|discriminate]. simpl in Em. destruct (mapM _ its) as [rs'|]; [|discriminate]. simpl in Em. injection Em as <-.
      simpl. rewrite (IH rs'); auto.
  Qed.
  Lemma mapM_somes {A} e (l : list A) : mapM (fun r => or_raise r e) (map Some l) = Ok l.
  Proof. induction l as [|a l IH]; simpl; auto. rewrite IH. auto. Qed.
  Lemma cell_ok slv h window c items : build h = Ok c -> solve LA slv c window None = (map Some items, None) ->
    cell slv h window = Ok (dict_of Z.eqb (map (fun r => (r_time LA r, r_cov LA r)) items), dict_of Z.eqb (map (fun r => (r_time LA r, r_weights LA r)) items)).
  Proof. intros H1 H2. unfold cm_iewma. rewrite H1. cbn [bind]. rewrite H2, mapM_somes. auto. Qed.

  Lemma cell_none_ returns pairs0 slv window c items : cm_build LA label to_mat to_vec reg returns pairs0 mpv mpc = Ok c ->
    solve LA slv c window None = (items, None) -> In None items ->
    cm_iewma LA label to_mat to_vec reg slv returns pairs0 mpv mpc window = Raise AttributeError.
  Proof.
    intros H1 H2 H3. unfold cm_iewma. rewrite H1. cbn [bind]. rewrite H2. clear H2. assert (E : mapM (fun r => or_raise r AttributeError) items = Raise AttributeError).
    { induction items as [|[r|] l IH]; [destruct H3| |reflexivity]. destruct H3 as [H3|H3]; [discriminate|]. simpl. rewrite IH; auto. }
    rewrite E. auto.
  Qed.
  Lemma cm_known h outs sigmas : length (findex h) = length (fvals h) -> increasing (findex h) ->
    (forall p, In p pairs -> run p h = Ok (outs p)) -> cm_issued h outs sigmas ->
    increasing (forecast_times LA sigmas) /\ incl (forecast_times LA sigmas) (findex h) /\ returns_known LA sigmas (rows_of_frame LA to_vec h).
  Proof.
    intros H1 H2 Ho Hi. assert (A : increasing (forecast_times LA sigmas) /\ incl (forecast_times LA sigmas) (findex h)).
    { destruct (cm_first _ _ _ Hi) as [_ ->]. apply (times_sub _ _ _ Hnan H1 H2 (Ho fast (or_introl eq_refl))). }
    destruct A as [A1 A2]. split; auto. split; auto. intros t Ht. unfold rows_of_frame. rewrite map_fst_combine by (rewrite map_length; lia). apply A2.
    unfold scored in Ht. destruct (forecast_times LA sigmas); [destruct Ht|right; auto].
  Qed.
  (** Schedule of the underlying run. *)
  Lemma cm_schedule h outs sigmas c slv window items : length (findex h) = length (fvals h) -> increasing (findex h) ->
    (forall p, In p pairs -> run p h = Ok (outs p)) -> cm_issued h outs sigmas -> build h = Ok c ->
    solve LA slv c window None = (map Some items, None) ->
    let T := length (forecast_times LA sigmas) in
    2 <= T /\ map (r_time LA) items = skipn (eff T window) (forecast_times LA sigmas) /\ NoDup (map (r_time LA) items).
  Proof.
    intros H1 H2 Ho Hi Hc Hs T. destruct (cm_known h outs sigmas H1 H2 Ho Hi) as (I1 & I2 & I3).
    pose proof Hi as (_ & _ & D & _). rewrite (cm_built _ _ _ Hi) in Hc.
    assert (L2 : 2 <= T).
    { destruct (le_lt_dec 2 T) as [L2|L2]; auto. rewrite (CombProps.schedule_short LA _ _ _ _ _ _ D Hc) in Hs by (unfold T in *; lia). discriminate. }
    split; auto. destruct (schedule LA sigmas _ None c slv window _ D Hc I1 I3 L2 Hs) as (L3 & L4). rewrite map_length in L3. fold T in L3, L4.
    assert (E : map (r_time LA) items = skipn (eff T window) (forecast_times LA sigmas)).
    { apply nth_ext with (d := 0%Z) (d' := 0%Z); [rewrite map_length, skipn_length; exact L3|].
      rewrite map_length. intros j Hj. rewrite nth_skipn_eq. destruct (nth_error items j) as [r|] eqn:Er; [|apply nth_error_None in Er; lia].
      rewrite <- (L4 j r). - apply nth_error_nth. rewrite nth_error_map, Er. auto. - rewrite nth_error_map, Er. auto. }
    split; auto. rewrite E. pose proof (increasing_NoDup _ I1) as Hn. rewrite <- (firstn_skipn (eff T window) (forecast_times LA sigmas)) in Hn.
    revert Hn. generalize (firstn (eff T window) (forecast_times LA sigmas)). intros l. induction l as [|a l IH]; auto. simpl. intros Hn. apply IH. inversion Hn; auto.
  Qed.
  Lemma cell_lists h outs sigmas c slv window items : length (findex h) = length (fvals h) -> increasing (findex h) ->
    (forall p, In p pairs -> run p h = Ok (outs p)) -> cm_issued h outs sigmas -> build h = Ok c ->
    solve LA slv c window None = (map Some items, None) ->
    dict_of Z.eqb (map (fun r => (r_time LA r, r_cov LA r)) items) = map (fun r => (r_time LA r, r_cov LA r)) items /\
    dict_of Z.eqb (map (fun r => (r_time LA r, r_weights LA r)) items) = map (fun r => (r_time LA r, r_weights LA r)) items.
  Proof.
    intros H1 H2 Ho Hi Hc Hs. destruct (cm_schedule h outs sigmas c slv window items H1 H2 Ho Hi Hc Hs) as (_ & _ & Hn).
    split; apply dict_of_nodup; rewrite map_map; auto.
  Qed.

  Section Look.
    Context (f : frame time) (k : nat).
    Hypothesis Hlen : length (findex f) = length (fvals f).
    Hypothesis Hinc : increasing (findex f).
    Notation g := (frame_take k f).
    Notation late V := (Forall (fun tv : Z * V => In (fst tv) (skipn k (findex f)))).

    Lemma cm_part outs outs' sigmas sigmas' c' :
      (forall p, In p pairs -> run p g = Ok (outs p)) -> (forall p, In p pairs -> run p f = Ok (outs' p)) ->
      cm_issued g outs sigmas -> cm_issued f outs' sigmas' -> build f = Ok c' ->
      same_times LA sigmas /\ extends sigmas sigmas' /\ exists c, build g = Ok c.
    Proof.
      intros Ho Ho' Hi Hi' Hc'. rewrite (cm_built _ _ _ Hi') in Hc'. pose proof Hi as (E & K1 & D1 & G & G0). pose proof Hi' as (E' & K1' & D1' & G' & G0').
      destruct (from_sigmas_inv LA _ _ _ _ D1' Hc') as (S' & F' & _ & _).
      assert (Hm := fun p Hp => more_of f k pairs mpv mpc None false Hnan Hlen Hinc outs outs' Ho Ho' p Hp).
      assert (He := fun p t Hp => early f k pairs mpv mpc None false Hnan Hlen Hinc outs outs' Ho Ho' p t Hp).
      assert (Hs : same_times LA sigmas).
      { intros ks t Hk. destruct (G0 ks Hk) as (p & Hp & ->). cbn [snd]. unfold cm_covs. rewrite map_map. cbn [fst].
        destruct (cm_first _ _ _ Hi) as [_ ->]. assert (Hq : In fast pairs) by (left; auto).
        rewrite (He p t Hp), (He fast t Hq), (cm_times _ _ _ _ Hi' S' Hp), (cm_times _ _ _ _ Hi' S' Hq). tauto. }
      split; auto. split.
      - unfold extends. eapply (values_eq (fun _ a b => exists ext, b = a ++ ext)); [apply D1|apply D1'|congruence|].
        intros kk v w Hv Hw. assert (Hkk : In kk (firsts (map label pairs))) by (rewrite <- K1; apply in_map_iff; exists (kk, v); split; auto; apply kget_In; auto).
        apply (firsts_In (map label pairs)) in Hkk. apply in_map_iff in Hkk. destruct Hkk as (p & <- & Hp).
        rewrite G in Hv by auto. rewrite G' in Hw by auto. injection Hv as <-. injection Hw as <-.
        destruct (Hm p Hp) as (more & -> & _). unfold cm_covs. rewrite map_app. eauto.
      - exists (built LA sigmas (rows_of_frame LA to_vec g) None). rewrite (cm_built _ _ _ Hi). apply from_sigmas_ok; auto; [|exact I].
        intros ks tS Hk Ht. destruct (G0 ks Hk) as (p & Hp & ->). cbn [snd] in Ht. pose proof (G' p Hp) as G1. apply kget_In in G1.
        apply (F' _ tS G1). cbn [snd]. destruct (Hm p Hp) as (more & -> & _). unfold cm_covs. rewrite map_app. apply in_or_app. auto.
    Qed.

    Theorem cm_no_look_ahead slv w covs' weights' : cell slv f (Some w) = Ok (covs', weights') ->
      match build g with
      | Ok _ => forall p outs, In p pairs -> run p g = Ok outs -> 1 <= w < length outs ->
          exists covs weights mc mw, cell slv g (Some w) = Ok (covs, weights) /\ covs' = covs ++ mc /\ weights' = weights ++ mw /\
            length covs = length outs - w /\ length weights = length outs - w /\ late (l_mat LA) mc /\ late (list (l_num LA)) mw
      | Raise e => e = IndexError /\ late (l_mat LA) covs' /\ late (list (l_num LA)) weights'
      end.
    Proof.
      intros Hcell. destruct (cell_inv _ _ _ _ _ Hcell) as (c' & rs & Hc' & Hs' & Ec & Ew).
      destruct (cm_runs f c' Hc') as (outs' & Ho'). destruct (cm_issue f outs' Hlen (increasing_NoDup _ Hinc) Ho') as (sigmas' & Hi').
      destruct (cm_known f outs' sigmas' Hlen Hinc Ho' Hi') as (I1 & I2 & I3).
      destruct (cm_schedule f outs' sigmas' c' slv (Some w) rs Hlen Hinc Ho' Hi' Hc' Hs') as (L2 & Et' & Nt').
      destruct (cell_lists f outs' sigmas' c' slv (Some w) rs Hlen Hinc Ho' Hi' Hc' Hs') as (C1 & C2).
      rewrite C1 in Ec. rewrite C2 in Ew. subst covs' weights'. clear C1 C2.
      pose proof Hi' as (_ & K1' & D1' & G' & G0').
      pose proof Hc' as Hc2. rewrite (cm_built _ _ _ Hi') in Hc2. destruct (from_sigmas_inv LA _ _ _ _ D1' Hc2) as (S' & F' & _ & _).
      destruct (mapM_cases (fun p => run p g) pairs) as [(r & Er)|(p & e & Hp & Ee & _)].
      - set (outs := fun p => match run p g with Ok o => o | Raise _ => [] end).
        assert (Ho : forall p, In p pairs -> run p g = Ok (outs p)).
        { intros p Hp. unfold outs. destruct (mapM_inv _ _ _ Er p Hp) as (y & ->). auto. }
        assert (GL : length (findex g) = length (fvals g)) by (eapply glen; eauto). assert (GI : increasing (findex g)) by (eapply ginc; eauto).
        destruct (cm_issue g outs GL (increasing_NoDup _ GI) Ho) as (sigmas & Hi).
        destruct (cm_part outs outs' sigmas sigmas' c' Ho Ho' Hi Hi' Hc') as (Sc & X1 & c & Hc).
        destruct (cm_known g outs sigmas GL GI Ho Hi) as (J1 & J2 & J3). pose proof Hi as (_ & K1 & D1 & G & G0).
        rewrite Hc. intros p o Hp Eo Hw. assert (o = outs p) by (rewrite (Ho p Hp) in Eo; congruence). subst o. clear Eo.
        assert (Lf : length (forecast_times LA sigmas) = length (outs p)).
        { rewrite <- (map_length itime (outs p)). apply Nat.le_antisymm; apply NoDup_incl_length.
          - apply increasing_NoDup; auto.
          - intros t Ht. apply (cm_times _ _ _ _ Hi Sc Hp). auto.
          - apply (times_nodup _ _ _ Hnan GL (increasing_NoDup _ GI) (Ho p Hp)).
          - intros t Ht. apply (cm_times _ _ _ _ Hi Sc Hp). auto. }
        pose proof Hc as Hc3. rewrite (cm_built _ _ _ Hi) in Hc3. rewrite (rows_take LA to_vec f k Hlen) in Hc2, I3.
        destruct (CombProps.no_look_ahead LA sigmas (rows_of_frame LA to_vec g) None sigmas' _ None c c' slv w _
          D1 D1' I1 X1 I Hc3 Hc2 J3 I3 ltac:(lia) Hs') as (items & more & R1 & R2 & R3).
        assert (Es : items = map Some (firstn (length items) rs)).
        { assert (items = firstn (length items) (map Some rs)) by (rewrite R2, firstn_app, Nat.sub_diag, firstn_all, app_nil_r; auto).
          rewrite firstn_map in H. auto. }
        set (m := length items) in *. rewrite Es in R1. 
        destruct (cm_schedule g outs sigmas c slv (Some w) _ GL GI Ho Hi Hc R1) as (_ & Et & _).
        destruct (cell_lists g outs sigmas c slv (Some w) _ GL GI Ho Hi Hc R1) as (C1 & C2).
        pose proof (cell_ok slv g (Some w) c _ Hc R1) as HC. rewrite C1, C2 in HC.
        assert (Hlate : Forall (fun r => In (r_time LA r) (skipn k (findex f))) (skipn m rs)).
        { apply Forall_forall. intros r0 Hr0. destruct (extends_times LA sigmas sigmas' X1) as (ex & Ex).
          assert (Ew : eff (length (forecast_times LA sigmas')) (Some w) = w) by (rewrite Ex, app_length; unfold eff; destruct w; lia).
          assert (Et2 : map (r_time LA) (skipn m rs) = ex).
          { rewrite <- skipn_map, Et', Ew, skipn_twice. replace (m + w) with (length (forecast_times LA sigmas)) by lia.
            rewrite Ex, skipn_app, skipn_all, Nat.sub_diag. auto. }
          set (t := r_time LA r0). assert (Ht : In t ex) by (rewrite <- Et2; apply in_map; auto).
          assert (Hin : In t (findex f)) by (apply I2; rewrite Ex; apply in_or_app; auto).
          rewrite <- (firstn_skipn k (findex f)) in Hin. apply in_app_or in Hin. destruct Hin as [Hin|Hin]; auto. exfalso.
          assert (Hg : In t (map itime (outs p))).
          { apply (early f k pairs mpv mpc None false Hnan Hlen Hinc outs outs' Ho Ho' p t Hp). split; auto.
            apply (cm_times _ _ _ _ Hi' S' Hp). rewrite Ex. apply in_or_app; auto. }
          apply (cm_times _ _ _ _ Hi Sc Hp) in Hg.
          pose proof (increasing_NoDup _ I1) as Hn. rewrite Ex in Hn. eapply NoDup_app_disj; eauto. }
        exists (map (fun r => (r_time LA r, r_cov LA r)) (firstn m rs)), (map (fun r => (r_time LA r, r_weights LA r)) (firstn m rs)),
          (map (fun r => (r_time LA r, r_cov LA r)) (skipn m rs)), (map (fun r => (r_time LA r, r_weights LA r)) (skipn m rs)).
        assert (Lm : length (firstn m rs) = m) by (rewrite <- (map_length Some), <- Es; auto).
        split; [exact HC|]. rewrite <- !map_app, !firstn_skipn, !map_length, Lm. split; auto. split; auto. split; [lia|]. split; [lia|].
        split; apply Forall_map; exact Hlate.
      - assert (Hall : exists q e, In q pairs /\ run q g = Raise e /\ build g = Raise e).
        { destruct (mapM_cases (fun pair => do r <- run pair g; Ok (label pair, dict_of Z.eqb (map (fun o => (itime o, o)) r))) pairs)
            as [(r & E)|(q & e0 & Hq & E1 & E2)].
          - destruct (mapM_inv _ _ _ E p Hp) as (y & Ey). rewrite Ee in Ey. discriminate.
          - exists q, e0. split; auto. destruct (run q g) eqn:Eq; [discriminate|]. simpl in E1. injection E1 as ->. split; auto.
            unfold cm_build, cm_sigmas, ewma_results. rewrite E2. auto. }
        destruct Hall as (q & e0 & Hq & Eq & ->).
        pose proof (EwmaPrefix.no_look_ahead (pair_params mpv mpc None false q) f k Hnan Hlen (increasing_NoDup _ Hinc)) as HL.
        rewrite Eq in HL. destruct (HL _ (Ho' q Hq)) as (-> & FL). split; auto.
        assert (Hfor : forall t, In t (forecast_times LA sigmas') -> In t (skipn k (findex f))).
        { intros t Ht. apply (cm_times _ _ _ _ Hi' S' Hq) in Ht. apply in_map_iff in Ht. destruct Ht as (o & <- & Hin).
          rewrite Forall_forall in FL. auto. }
        assert (HF : Forall (fun r => In (r_time LA r) (skipn k (findex f))) rs).
        { apply Forall_forall. intros r0 Hr0. apply Hfor. apply (in_map (r_time LA)) in Hr0. rewrite Et' in Hr0.
          apply (skipn_In _ _ _ Hr0). }
        split; apply Forall_map; exact HF.
    Qed.
  End Look.
End Cm.
Lemma cell_none {N : Num} (LA : LinAlg) label to_mat to_vec reg returns pairs mpv mpc slv window c items :
  cm_build LA label to_mat to_vec reg returns pairs mpv mpc = Ok c -> solve LA slv c window None = (items, None) -> In None items ->
  cm_iewma LA label to_mat to_vec reg slv returns pairs mpv mpc window = Raise AttributeError.
Proof. apply cell_none_. Qed.
