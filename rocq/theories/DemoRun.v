(** * The demo: no look-ahead (C126). *)
From Coq Require Import ZArith String List Bool Arith Lia.
From Verif Require Import Num Py ListFacts Ewma EwmaTot EwmaPrefix Spec Combination SpecComb CombFacts CombBuild CombProps CombItems EwmaAny FromEwmas SpecFrom FromEwmasProps FromRun CmRun Demo.
Import ListNotations.

Lemma map2_firstn {A B C} (h : A -> B -> C) k l l' : firstn k (map2 h l l') = map2 h (firstn k l) (firstn k l').
Proof. revert l l'; induction k; intros [|a l] [|b l']; simpl; auto. f_equal; auto. Qed.
Lemma map2_firstn_S {A B C} (h : A -> B -> C) k l l' : firstn k (map2 h l l') = map2 h (firstn (S k) l) (firstn k l').
Proof. revert l l'; induction k; intros l l'; [destruct l; reflexivity|]. destruct l as [|a l], l' as [|b l']; simpl; auto. f_equal. apply IHk. Qed.

Section Take.
  Context {N : Num}.
  Lemma ffill_from_firstn k : forall last rows, firstn k (ffill_from last rows) = ffill_from last (firstn k rows).
  Proof. induction k; intros last [|r rows]; simpl; auto. f_equal. apply IHk. Qed.
  Lemma ffill_firstn k rows : firstn k (ffill rows) = ffill (firstn k rows).
  Proof. destruct k, rows; simpl; auto. f_equal. apply ffill_from_firstn. Qed.
  Lemma pct_take pad k f : pct_change pad (frame_take k f) = frame_take k (pct_change pad f).
  Proof.
    unfold pct_change, frame_take. cbn [findex fcols fvals]. f_equal.
    assert (E : (if pad then ffill (firstn k (fvals f)) else firstn k (fvals f)) = firstn k (if pad then ffill (fvals f) else fvals f)) by (destruct pad; auto; rewrite ffill_firstn; auto).
    rewrite E. destruct (if pad then ffill (fvals f) else fvals f) as [|r rest]; [rewrite !firstn_nil; auto|].
    destruct k as [|k]; [reflexivity|]. cbn [firstn]. f_equal. symmetry. apply (map2_firstn_S _ k (r :: rest) rest).
  Qed.
  Lemma ffill_length rows : length (ffill rows) = length rows.
  Proof. destruct rows as [|r rows]; auto. simpl. f_equal. revert r; induction rows; simpl; intros; auto. Qed.
  Lemma pct_length pad f : length (fvals (pct_change pad f)) = length (fvals f).
  Proof.
    unfold pct_change. cbn [fvals]. assert (E : length (if pad then ffill (fvals f) else fvals f) = length (fvals f)) by (destruct pad; auto; apply ffill_length).
    rewrite <- E. destruct (if pad then ffill (fvals f) else fvals f) as [|r rest]; auto. cbn [length]. f_equal. rewrite map2_length. cbn [length]. lia.
  Qed.

  Lemma drop_take k (f : frame time) : length (findex f) = length (fvals f) -> exists k',
    fdropna_all (frame_take k f) = frame_take k' (fdropna_all f) /\ incl (skipn k' (findex (fdropna_all f))) (skipn k (findex f)).
  Proof.
    intros H. set (kept := filter (fun p => negb (all_nan (snd p))) (combine (firstn k (findex f)) (firstn k (fvals f)))). exists (length kept).
    assert (E : filter (fun p => negb (all_nan (snd p))) (combine (findex f) (fvals f)) =
                kept ++ filter (fun p => negb (all_nan (snd p))) (combine (skipn k (findex f)) (skipn k (fvals f)))).
    { unfold kept. rewrite <- filter_app, <- combine_app; [rewrite !firstn_skipn; auto|rewrite !firstn_length; lia]. }
    unfold fdropna_all, frame_take. cbn [findex fcols fvals]. fold kept. rewrite E, !map_app. split.
    - f_equal; rewrite firstn_app, map_length, Nat.sub_diag, firstn_O, app_nil_r, firstn_all2; auto; rewrite map_length; auto.
    - rewrite skipn_app, map_length, Nat.sub_diag, skipn_all2 by (rewrite map_length; auto). cbn [app skipn]. intros t Ht.
      apply in_map_iff in Ht. destruct Ht as (p & <- & Hp). apply filter_In in Hp. destruct p; eapply in_combine_l; apply Hp.
  Qed.
  Lemma select_take names k f g : select names f = Ok g -> select names (frame_take k f) = Ok (frame_take k g).
  Proof.
    unfold select. cbn [frame_take fcols findex fvals]. destruct (mapM _ names) as [ps|]; cbn [bind]; [|discriminate]. intros H; injection H as <-.
    unfold frame_take. cbn [fcols findex fvals]. rewrite firstn_map. auto.
  Qed.
  Lemma select_index names f g : select names f = Ok g -> findex g = findex f /\ length (fvals g) = length (fvals f) /\ fcols g = names.
  Proof. unfold select. destruct (mapM _ names); cbn [bind]; [|discriminate]. intros H; injection H as <-. cbn. rewrite map_length. auto. Qed.

  Lemma returns_take pad names k prices f : length (findex prices) = length (fvals prices) -> demo_returns pad names prices = Ok f ->
    exists k', demo_returns pad names (frame_take k prices) = Ok (frame_take k' f) /\ incl (skipn k' (findex f)) (skipn k (findex prices)).
  Proof.
    intros HL H. unfold demo_returns in *. rewrite pct_take. destruct (drop_take k (pct_change pad prices)) as (k' & E & I); [rewrite pct_length; auto|].
    exists k'. rewrite E. destruct (select_index _ _ _ H) as (E1 & _). rewrite E1. split; [apply select_take; auto|exact I].
  Qed.
  Lemma returns_good pad names prices f : length (findex prices) = length (fvals prices) -> increasing (findex prices) ->
    demo_returns pad names prices = Ok f -> length (findex f) = length (fvals f) /\ increasing (findex f).
  Proof.
    intros HL HI H. destruct (select_index _ _ _ H) as (E1 & E2 & _). rewrite E1, E2. split.
    - unfold fdropna_all. cbn. rewrite !map_length. auto.
    - apply (sub_dropna (pct_change pad prices)); [rewrite pct_length; auto|exact HI].
  Qed.
End Take.

Section Table.
  Context {N : Num} (LA : LinAlg) (label : option num * option num -> string)
          (to_mat : frame string -> l_mat LA) (to_vec : vec -> l_vec LA).
  Context (pairs : list (option num * option num)) (mpv mpc : nat) (clip_at : option num).
  Hypothesis Hnan : nisnan nnan = true.
  Hypothesis Hlab : forall p q, In p pairs -> In q pairs -> label p = label q -> p = q.
  Notation run p h := (iterated_ewma (pair_params mpv mpc clip_at true p) h).
  Notation comb_of h := (from_ewmas LA label to_mat to_vec h pairs mpv mpc clip_at true).
  Notation the_demo slv pad names h window := (demo LA label to_mat to_vec slv pad names h pairs mpv mpc clip_at window).
  Notation table rs := (map (fun r => (r_time LA r, r_weights LA r)) rs).

  Lemma demo_inv slv pad names h window t : the_demo slv pad names h window = Ok t ->
    exists f c rs, demo_returns pad names h = Ok f /\ comb_of f = Ok c /\ solve LA slv c window None = (map Some rs, None) /\ t = dict_of Z.eqb (table rs).
  Proof.
    unfold demo. destruct (demo_returns pad names h) as [f|]; [|discriminate]. cbn [bind]. destruct (comb_of f) as [c|] eqn:E; [|discriminate]. cbn [bind].
    destruct (solve LA slv c window None) as [its [e|]] eqn:Es; [discriminate|].
    destruct (mapM _ its) as [rs|] eqn:Em; [|discriminate]. cbn [bind]. intros H. injection H as <-.
    exists f, c, rs. split; auto. split; auto. split; auto. rewrite Es. f_equal. clear Es. revert rs Em. induction its as [|a its IH]; simpl; intros rs Em.
    - injection Em as <-. auto.
    - destruct a as [r|]; [|discriminate]. simpl in Em. destruct (mapM _ its) as [rs'|]; [|discriminate]. simpl in Em. injection Em as <-.
      simpl. rewrite (IH rs'); auto.
  Qed.
  Lemma demo_ok slv pad names h window f c rs : demo_returns pad names h = Ok f -> comb_of f = Ok c -> solve LA slv c window None = (map Some rs, None) ->
    the_demo slv pad names h window = Ok (dict_of Z.eqb (table rs)).
  Proof. intros H0 H1 H2. unfold demo. rewrite H0. cbn [bind]. rewrite H1. cbn [bind]. rewrite H2, mapM_somes. auto. Qed.

  Lemma run_times h c slv window rs : length (findex h) = length (fvals h) -> increasing (findex h) ->
    comb_of h = Ok c -> solve LA slv c window None = (map Some rs, None) -> NoDup (map (r_time LA) rs).
  Proof.
    intros H1 H2 Hc Hs. destruct (runs_of LA label to_mat to_vec pairs mpv mpc clip_at true h c Hc) as (outs & Ho).
    assert (X : exists sigmas means, issued LA label to_mat to_vec pairs mpv mpc clip_at true h outs sigmas means) by (eapply issue; eauto; apply increasing_NoDup; auto).
    destruct X as (sigmas & means & Hi).
    assert (X : increasing (forecast_times LA sigmas) /\ incl (forecast_times LA sigmas) (findex h) /\ returns_known LA sigmas (rows_of_frame LA to_vec h)) by (eapply known; eauto).
    destruct X as (I1 & I2 & I3). pose proof Hi as (E & _ & _ & D & _). rewrite Hc in E. symmetry in E.
    set (T := length (forecast_times LA sigmas)).
    assert (L2 : 2 <= T).
    { destruct (le_lt_dec 2 T) as [L2|L2]; auto. rewrite (CombProps.schedule_short LA _ _ _ _ _ _ D E) in Hs by (unfold T in *; lia). discriminate. }
    destruct (schedule LA sigmas _ _ c slv window _ D E I1 I3 L2 Hs) as (L3 & L4). rewrite map_length in L3. fold T in L3, L4.
    assert (E3 : map (r_time LA) rs = skipn (eff T window) (forecast_times LA sigmas)).
    { apply nth_ext with (d := 0%Z) (d' := 0%Z); [rewrite map_length, skipn_length; exact L3|].
      rewrite map_length. intros j Hj. rewrite nth_skipn_eq. destruct (nth_error rs j) as [r|] eqn:Er; [|apply nth_error_None in Er; lia].
      rewrite <- (L4 j r). - apply nth_error_nth. rewrite nth_error_map, Er. auto. - rewrite nth_error_map, Er. auto. }
    rewrite E3. pose proof (increasing_NoDup _ I1) as Hn. rewrite <- (firstn_skipn (eff T window) (forecast_times LA sigmas)) in Hn.
    revert Hn. generalize (firstn (eff T window) (forecast_times LA sigmas)). intros l. induction l as [|a l IH]; auto. simpl. intros Hn. apply IH. inversion Hn; auto.
  Qed.
  Lemma demo_table h c slv window rs : length (findex h) = length (fvals h) -> increasing (findex h) ->
    comb_of h = Ok c -> solve LA slv c window None = (map Some rs, None) -> dict_of Z.eqb (table rs) = table rs.
  Proof. intros H1 H2 Hc Hs. apply dict_of_nodup. rewrite map_map. cbn [fst]. eapply run_times; eauto. Qed.

  Lemma demo_content slv pad names prices window t : length (findex prices) = length (fvals prices) -> increasing (findex prices) ->
    the_demo slv pad names prices window = Ok t ->
    exists f c rs, demo_returns pad names prices = Ok f /\ comb_of f = Ok c /\ solve LA slv c window None = (map Some rs, None) /\ NoDup (map fst t) /\ t = table rs.
  Proof.
    intros HL HI H. destruct (demo_inv _ _ _ _ _ _ H) as (f & c & rs & Hr & Hc & Hs & ->). destruct (returns_good pad names prices f HL HI Hr) as (FL & FI).
    exists f, c, rs. do 3 (split; [assumption|]). rewrite (demo_table f c slv window rs FL FI Hc Hs). split; auto.
    rewrite map_map. cbn [fst]. eapply run_times; eauto.
  Qed.
  Theorem demo_no_look_ahead slv pad names prices k w table' :
    length (findex prices) = length (fvals prices) -> increasing (findex prices) ->
    the_demo slv pad names prices (Some w) = Ok table' ->
    let late := Forall (fun tv : Z * list (l_num LA) => In (fst tv) (skipn k (findex prices))) in
    exists f, demo_returns pad names (frame_take k prices) = Ok f /\
    match comb_of f with
    | Ok _ => forall p outs, In p pairs -> run p f = Ok outs -> 1 <= w < length outs ->
        exists table more, the_demo slv pad names (frame_take k prices) (Some w) = Ok table /\ table' = table ++ more /\
          length table = length outs - w /\ late more
    | Raise e => e = IndexError /\ late table'
    end.
  Proof.
    intros HL HI H late. destruct (demo_inv _ _ _ _ _ _ H) as (f & c' & rs & Hr & Hc & Hs & ->).
    destruct (returns_take pad names k prices f HL Hr) as (k' & Hr' & Hk). destruct (returns_good pad names prices f HL HI Hr) as (FL & FI).
    exists (frame_take k' f). split; auto. rewrite (demo_table f c' slv (Some w) rs FL FI Hc Hs).
    assert (GL : length (findex (frame_take k' f)) = length (fvals (frame_take k' f))) by (cbn; rewrite !firstn_length; lia).
    assert (GI : increasing (findex (frame_take k' f))) by (cbn; apply (increasing_app_l _ (skipn k' (findex f))); rewrite firstn_skipn; auto).
    pose proof (run_no_look_ahead LA label to_mat to_vec f k' pairs mpv mpc clip_at true Hnan FL FI Hlab c' Hc) as G.
    assert (Hlate : forall more, Forall (later LA f k') (map Some more) -> late (table more)).
    { intros more F. unfold late. rewrite Forall_map in F. rewrite Forall_map. eapply Forall_impl; [|exact F]. intros r Hin. apply Hk. exact Hin. }
    destruct (comb_of (frame_take k' f)) as [c|e] eqn:Ec.
    - intros p outs Hp Ho Hw. destruct (G p outs w slv _ Hp Ho Hw Hs) as (items & more & E1 & E2 & E3 & E4).
      assert (Ei : items = map Some (firstn (length items) rs)).
      { assert (X : items = firstn (length items) (map Some rs)) by (rewrite E2, firstn_app, Nat.sub_diag, firstn_all, app_nil_r; auto).
        rewrite firstn_map in X. auto. }
      assert (Em : more = map Some (skipn (length items) rs)).
      { assert (X : more = skipn (length items) (map Some rs)) by (rewrite E2, skipn_app, Nat.sub_diag, skipn_all; auto). rewrite skipn_map in X. auto. }
      set (m := length items) in *. rewrite Ei in E1. exists (table (firstn m rs)), (table (skipn m rs)).
      assert (Lm : length (firstn m rs) = m) by (rewrite <- (map_length Some), <- Ei; auto).
      split; [rewrite (demo_ok _ _ _ _ _ _ _ _ Hr' Ec E1); rewrite (demo_table _ c slv (Some w) _ GL GI Ec E1); auto|].
      rewrite <- map_app, firstn_skipn. split; auto. rewrite map_length, Lm. split; auto. apply Hlate. rewrite <- Em. exact E4.
    - destruct G as (-> & G). split; auto. apply Hlate. eapply G; eauto.
  Qed.
End Table.
