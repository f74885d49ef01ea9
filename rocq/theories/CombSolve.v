(** * combination.py: solve() in closed form. *)
From Coq Require Import String List Bool ZArith Arith Lia.
From Verif Require Import Num Py ListFacts Combination SpecComb CombFacts CombBuild.
Import ListNotations.

(** ** Lists *)
Lemma sub_nth {A} (l : list A) p w d : p + w <= length l -> map (fun i => nth i l d) (seq p w) = sub l p w.
Proof.
  unfold sub. revert p l; induction w as [|w IH]; intros p l H; auto.
  simpl seq. simpl map. rewrite IH by lia.
  assert (E : skipn p l = nth p l d :: skipn (S p) l).
  { clear IH. revert l H; induction p as [|p IHp]; intros [|x l] H; simpl in *; try lia; auto. apply IHp. simpl in *; lia. }
  rewrite E. reflexivity.
Qed.
Lemma sub_length {A} (l : list A) p w : p + w <= length l -> length (sub l p w) = w.
Proof. intros H. unfold sub. rewrite firstn_length, skipn_length. lia. Qed.
Lemma nth_sub {A} (l : list A) p w i d : i < w -> nth i (sub l p w) d = nth (p + i) l d.
Proof.
  unfold sub. revert i l w; induction p as [|p IH]; intros i l w H.
  - simpl. revert i l H; induction w; intros i l H; [lia|]. destruct l, i; simpl; auto. apply IHw; lia.
  - destruct l as [|x l]; [simpl; rewrite firstn_nil; destruct i; auto|]. simpl. apply IH; auto.
Qed.
Lemma skipn_skipn' {A} (l : list A) p a : skipn p (skipn a l) = skipn (a + p) l.
Proof. revert l; induction a as [|a IH]; intros l; auto. destruct l; simpl; [apply skipn_nil|auto]. Qed.
Lemma sub_sub {A} (l : list A) a n p w : p + w <= n -> a + n <= length l -> sub (sub l a n) p w = sub l (a + p) w.
Proof.
  intros H1 H2. unfold sub. rewrite skipn_firstn_comm, skipn_skipn', firstn_firstn.
  rewrite Nat.min_l by lia. auto.
Qed.
Lemma sub_map {A B} (f : A -> B) l p w : sub (map f l) p w = map f (sub l p w).
Proof. unfold sub. rewrite skipn_map, firstn_map. auto. Qed.
Lemma sub_In {A} (l : list A) p w x : In x (sub l p w) -> In x l.
Proof. unfold sub. intros H. rewrite <- (firstn_skipn p l). apply in_or_app. right.
  rewrite <- (firstn_skipn w (skipn p l)). apply in_or_app; auto. Qed.
Lemma NoDup_skipn {A} n (l : list A) : NoDup l -> NoDup (skipn n l).
Proof. revert l; induction n; intros [|x l] H; simpl; auto. inversion H; auto. Qed.
Lemma NoDup_firstn {A} n (l : list A) : NoDup l -> NoDup (firstn n l).
Proof.
  revert l; induction n; intros [|x l] H; simpl; auto; try constructor; inversion H; subst; auto.
  intros Hi. apply H2. rewrite <- (firstn_skipn n l). apply in_or_app; auto.
Qed.
Lemma NoDup_sub {A} (l : list A) p w : NoDup l -> NoDup (sub l p w).
Proof. intros; unfold sub. apply NoDup_firstn, NoDup_skipn; auto. Qed.

Lemma pyget_nat {A} (l : list A) i d : i < length l -> pyget l (Z.of_nat i) = Ok (nth i l d).
Proof.
  intros H. unfold pyget, pynorm.
  destruct (Z.ltb_spec (Z.of_nat i) 0); [lia|].
  destruct (Z.leb_spec 0 (Z.of_nat i)); [|lia]. destruct (Z.ltb_spec (Z.of_nat i) (Z.of_nat (length l))); [|lia].
  simpl. rewrite Nat2Z.id. rewrite (nth_error_nth' l d H). auto.
Qed.

(** ** Sorted indices *)
Lemma increasing_inc_b l : increasing l -> inc_b l = true.
Proof.
  induction l as [|a [|b l] IH]; auto. intros [H1 H2]. cbn [inc_b].
  destruct (Z.ltb_spec a b); [|lia]. apply IH; auto.
Qed.
Lemma increasing_nth_lt l i j d : increasing l -> i < j -> j < length l -> (nth i l d < nth j l d)%Z.
Proof.
  revert i j; induction l as [|a l IH]; intros i j H Hi Hj; simpl in Hj; [lia|].
  destruct j as [|j]; [lia|]. destruct i as [|i].
  - simpl. pose proof (increasing_all_lt _ _ H) as F. rewrite Forall_forall in F. apply F. apply nth_In. lia.
  - simpl. apply IH; [eapply increasing_tail; eauto|lia|lia].
Qed.
Lemma increasing_nth_le l i j d : increasing l -> i < length l -> j < length l ->
  ((nth i l d <= nth j l d)%Z <-> i <= j).
Proof.
  intros H Hi Hj. split; intros H'.
  - destruct (le_lt_dec i j); auto. pose proof (increasing_nth_lt l j i d H l0 Hi). lia.
  - destruct (Nat.eq_dec i j); [subst; lia|]. pose proof (increasing_nth_lt l i j d H). lia.
Qed.
Lemma filter_seq_between n p q : p <= q -> q < n ->
  filter (fun i => (p <=? i) && (i <=? q)) (seq 0 n) = seq p (q + 1 - p).
Proof.
  intros H1 H2. replace n with (p + ((q + 1 - p) + (n - q - 1))) by lia.
  rewrite !seq_app, !filter_app.
  rewrite (filter_none _ (seq 0 p)), (filter_all _ (seq (0 + p) (q + 1 - p))), (filter_none _ (seq (0 + p + _) _)).
  - rewrite app_nil_r. auto.
  - intros i Hi. apply in_seq in Hi. apply andb_false_iff. right. apply Nat.leb_gt. lia.
  - intros i Hi. apply in_seq in Hi. apply andb_true_iff. split; apply Nat.leb_le; lia.
  - intros i Hi. apply in_seq in Hi. apply andb_false_iff. left. apply Nat.leb_gt. lia.
Qed.
Lemma truncate_ok idx p q : increasing idx -> p <= q -> q < length idx ->
  truncate_pos idx (nth p idx 0%Z) (nth q idx 0%Z) = Ok (seq p (q + 1 - p)).
Proof.
  intros H H1 H2. unfold truncate_pos. rewrite increasing_inc_b by auto.
  assert (Hle : (nth p idx 0 <= nth q idx 0)%Z) by (apply increasing_nth_le; auto; lia).
  destruct (Z.ltb_spec (nth q idx 0) (nth p idx 0))%Z; [lia|].
  rewrite <- (filter_seq_between (length idx)) by auto. f_equal. apply filter_ext_in.
  intros i Hi. apply in_seq in Hi. cbv zeta. f_equal; apply eq_iff_eq_true; rewrite Z.leb_le, Nat.leb_le; apply increasing_nth_le; auto; lia.
Qed.

Lemma increasing_sub l p w : increasing l -> increasing (sub l p w).
Proof.
  unfold sub. revert w l; induction p as [|p IH]; intros w l H.
  - simpl. revert l H; induction w as [|w IHw]; intros [|a l] H; simpl; auto.
    specialize (IHw l (increasing_tail _ _ H)). destruct l as [|b l]; [destruct w; simpl; auto|].
    destruct w as [|w]; simpl in *; auto. destruct H; auto.
  - destruct l as [|a l]; simpl; [rewrite firstn_nil; simpl; auto|]. apply IH. eapply increasing_tail; eauto.
Qed.

Section Solve.
  Context (LA : LinAlg).
  Notation sigmas_t := (kdict (tdict (l_mat LA))).
  Notation means_t := (kdict (tdict (l_vec LA))).
  Notation returns_t := (tdict (l_vec LA)).
  Implicit Types (sigmas : sigmas_t) (means : option means_t) (returns : returns_t).

  Lemma scored_nodup sigmas : dicts sigmas -> NoDup (scored LA sigmas).
  Proof.
    intros H. unfold scored. pose proof (forecast_nodup LA sigmas H) as Hn.
    destruct (forecast_times LA sigmas); simpl; auto. inversion Hn; auto.
  Qed.
  Lemma keys_nil_scored sigmas : map fst sigmas = [] -> scored LA sigmas = [].
  Proof. intros H. unfold scored. rewrite (keys_nil LA sigmas H). auto. Qed.

  Lemma scored_prev_In sigmas t : In t (scored LA sigmas) ->
    In (prev (forecast_times LA sigmas) t) (forecast_times LA sigmas).
  Proof.
    unfold scored. induction (forecast_times LA sigmas) as [|a l IH]; simpl; [tauto|].
    destruct l as [|b l]; simpl; [tauto|]. destruct (Z.eqb_spec b t); [auto|].
    intros [->|H]; [tauto|]. right. apply IH. simpl. auto.
  Qed.

  Lemma Lts_ok sigmas returns means : dicts sigmas -> returns_known LA sigmas returns ->
    Lts_at_r LA (built LA sigmas returns means) =
    Ok (tab (map fst sigmas) (scored LA sigmas) (score LA sigmas means returns)).
  Proof.
    intros Hd Hr. unfold Lts_at_r, built. cbn [c_Ls_shifted c_nus_shifted c_returns].
    set (idx := forecast_times LA sigmas). change (tl idx) with (scored LA sigmas).
    unfold tab at 4. cbn [o_cols]. rewrite mapM_map.
    rewrite (mapM_ok _ (fun k => (k, map (fun t => (t, score LA sigmas means returns k t)) (scored LA sigmas)))).
    - cbn [bind]. rewrite df_tabulated; auto using scored_nodup, keys_nil_scored.
    - intros k Hk. cbn [fst snd]. unfold tab. cbn [o_cols].
      rewrite (kget_tabulate _ (fun k => map (fun t => Some (l_tmulv LA (factor LA sigmas k (prev idx t)) (mean_at LA means k (prev idx t)))) (scored LA sigmas))) by auto.
      cbn [or_raise bind]. unfold B_t_col, ocol_items. cbn [o_idx]. rewrite !items_tab, mapM_map.
      rewrite (mapM_ok _ (fun t => (t, score LA sigmas means returns k t))); [reflexivity|].
      intros t Ht. cbn [fst snd or_raise bind].
      destruct (dict_get_key _ _ (Hr t Ht)) as (r & Er). rewrite Er. cbn [or_raise bind].
      rewrite (dict_get_tabulate _ (fun t => Some (l_tmulv LA (factor LA sigmas k (prev idx t)) (mean_at LA means k (prev idx t))))) by auto.
      cbn [or_raise bind]. unfold score, return_at. rewrite Er. reflexivity.
  Qed.

  Lemma Lts_missing sigmas returns means : dicts sigmas -> ~ returns_known LA sigmas returns ->
    Lts_at_r LA (built LA sigmas returns means) = Raise KeyError.
  Proof.
    intros Hd Hr. unfold Lts_at_r, built. cbn [c_Ls_shifted c_nus_shifted c_returns].
    set (idx := forecast_times LA sigmas). change (tl idx) with (scored LA sigmas).
    unfold tab at 4. cbn [o_cols]. rewrite mapM_map.
    match goal with |- context [mapM ?g (map fst sigmas)] =>
      assert (E : mapM g (map fst sigmas) = Raise KeyError); [|rewrite E; reflexivity] end.
    assert (Hex : exists t, In t (scored LA sigmas) /\ dict_get Z.eqb returns t = None).
    { destruct (forallb (fun t => mem t (map fst returns)) (scored LA sigmas)) eqn:E.
      - exfalso. apply Hr. intros t Ht. rewrite forallb_forall in E. apply mem_In; auto.
      - assert (exists t, In t (scored LA sigmas) /\ mem t (map fst returns) = false) as (t & H1 & H2).
        { revert E. generalize (scored LA sigmas). intros l; induction l as [|x l IH]; simpl; [discriminate|].
          intros H. apply andb_false_iff in H. destruct H; [exists x; auto|]. destruct (IH H) as (y & ? & ?). exists y; auto. }
        exists t. split; auto. apply dict_get_none. intros H. apply mem_In in H. congruence. }
    assert (Hall : forall k, In k (map fst sigmas) ->
      B_t_col LA (map (fun t => (t, Some (factor LA sigmas k (prev idx t)))) (scored LA sigmas))
         (map (fun t => (t, Some (l_tmulv LA (factor LA sigmas k (prev idx t)) (mean_at LA means k (prev idx t))))) (scored LA sigmas)) returns = Raise KeyError).
    { intros k Hk. unfold B_t_col. rewrite mapM_map. apply mapM_raise.
      - destruct Hex as (t & Ht & E). exists t. split; auto. cbn [fst snd or_raise bind]. rewrite E. auto.
      - intros t e Ht. cbn [fst snd or_raise bind]. destruct (dict_get Z.eqb returns t); cbn [or_raise bind]; [|congruence].
        rewrite (dict_get_tabulate _ (fun t => Some (l_tmulv LA (factor LA sigmas k (prev idx t)) (mean_at LA means k (prev idx t))))) by auto.
        discriminate. }
    assert (Hone : forall k, In k (map fst sigmas) ->
       (do nus <- or_raise (dict_get String.eqb (o_cols (tab (map fst sigmas) (scored LA sigmas)
           (fun k t => l_tmulv LA (factor LA sigmas k (prev idx t)) (mean_at LA means k (prev idx t))))) k) KeyError;
        do v <- B_t_col LA (ocol_items (tab (map fst sigmas) (scored LA sigmas) (fun k t => factor LA sigmas k (prev idx t)))
                   (map (fun t => Some (factor LA sigmas k (prev idx t))) (scored LA sigmas)))
                 (ocol_items (tab (map fst sigmas) (scored LA sigmas)
           (fun k t => l_tmulv LA (factor LA sigmas k (prev idx t)) (mean_at LA means k (prev idx t)))) nus) returns;
        Ok (k, v)) = Raise KeyError).
    { intros k Hk. unfold tab. cbn [o_cols].
      rewrite (kget_tabulate _ (fun k => map (fun t => Some (l_tmulv LA (factor LA sigmas k (prev idx t)) (mean_at LA means k (prev idx t)))) (scored LA sigmas))) by auto.
      cbn [or_raise bind]. unfold ocol_items. cbn [o_idx]. rewrite !items_tab. rewrite Hall by auto. reflexivity. }
    apply mapM_raise.
    - destruct (map fst sigmas) as [|k ks] eqn:Ek.
      + destruct Hex as (t & Ht & _). rewrite (keys_nil_scored _ Ek) in Ht. destruct Ht.
      + exists k. split; [simpl; auto|]. apply (Hone k). simpl; auto.
    - intros k e Hk E. cbn [fst snd] in E. pose proof (eq_trans (eq_sym (Hone k Hk)) E). congruence.
  Qed.

  (** ** The problems of a run over a contiguous block of scored times. *)
  Lemma problems_block sigmas returns means w a len :
    dicts sigmas -> increasing (scored LA sigmas) -> 1 <= w -> a + len <= length (scored LA sigmas) ->
    problems_at LA (built LA sigmas returns means) w
       (tab (map fst sigmas) (scored LA sigmas) (score LA sigmas means returns)) (sub (scored LA sigmas) a len) =
    mapM (posed LA sigmas means returns w) (seq (a + w - 1) (len + 1 - w)).
  Proof.
    intros Hd Hinc Hw Hlen. unfold problems_at.
    set (avail := scored LA sigmas) in *. set (times := sub avail a len).
    set (sc := score LA sigmas means returns).
    set (bm := fun t => l_colstack LA (map (fun k => sc k t) (map fst sigmas))).
    assert (Hnd : NoDup avail) by (apply scored_nodup; auto).
    assert (Hnt : NoDup times) by (apply NoDup_sub; auto).
    assert (Lt : length times = len) by (apply sub_length; auto).
    (* Bs *)
    match goal with |- context [mapM ?g times] =>
      assert (E1 : mapM g times = Ok (map (fun t => (t, bm t)) times)) end.
    { apply mapM_ok. intros t Ht. apply sub_In in Ht. rewrite oloc_tab by auto. cbn [bind].
      rewrite <- (map_map (fun k => sc k t) Some). rewrite opt_cells_some. reflexivity. }
    rewrite E1. clear E1. cbn [bind]. rewrite map_map. cbn [fst snd]. rewrite Lt.
    (* range *)
    assert (Er : py_range (Z.of_nat w - 1) (Z.of_nat len) = map Z.of_nat (seq (w - 1) (len + 1 - w))).
    { unfold py_range. replace (Z.to_nat (Z.of_nat len - (Z.of_nat w - 1))) with (len + 1 - w) by lia.
      set (m := len + 1 - w). clearbody m.
      assert (G : forall s, map (fun i => (Z.of_nat w - 1 + Z.of_nat i)%Z) (seq s m) = map Z.of_nat (seq (w - 1 + s) m)).
      { induction m as [|m IH]; intros s; simpl; auto. f_equal; [lia|]. rewrite IH. f_equal. f_equal. lia. }
      rewrite G. f_equal. f_equal. lia. }
    rewrite Er. clear Er. rewrite !mapM_map.
    set (rg := seq (w - 1) (len + 1 - w)).
    assert (Hrg : forall i, In i rg -> w - 1 <= i < len) by (intros i Hi; apply in_seq in Hi; lia).
    assert (Eidx : forall i, In i rg -> (Z.of_nat i - Z.of_nat w + 1)%Z = Z.of_nat (i + 1 - w)).
    { intros i Hi. apply Hrg in Hi. lia. }
    (* P *)
    set (Q := fun i => quad LA sigmas means returns (window_at LA sigmas w (a + i))).
    match goal with |- context [mapM ?g rg] =>
      assert (E2 : mapM g rg = Ok (map (fun i => (nth i times 0%Z, Q i)) rg)) end.
    { apply mapM_ok. intros i Hi. rewrite (Eidx i Hi). pose proof (Hrg i Hi) as Hb.
      rewrite (pyget_nat times i 0%Z) by lia. rewrite (pyget_nat times (i + 1 - w) 0%Z) by lia. cbn [bind].
      rewrite map_map. cbn [fst]. rewrite map_id.
      rewrite (pos_of_nth times (i + 1 - w)) by (auto; lia). rewrite (pos_of_nth times i) by (auto; lia). cbn [or_raise bind].
      f_equal. f_equal. unfold Q, quad. f_equal.
      replace (i + 1 - (i + 1 - w)) with w by lia.
      change (firstn w (skipn (i + 1 - w) ?l)) with (sub l (i + 1 - w) w).
      rewrite !sub_map, !map_map. cbn [snd]. unfold times. rewrite sub_sub by lia.
      unfold window_at. fold avail. replace (a + i + 1 - w) with (a + (i + 1 - w)) by lia.
      apply map_ext. intros t. unfold bm. rewrite map_map. reflexivity. }
    rewrite E2. clear E2. cbn [bind]. rewrite mapM_map. cbn [fst snd].
    (* diag *)
    set (dg := fun k t => l_diag LA (factor LA sigmas k (prev (forecast_times LA sigmas) t))).
    assert (E3 : mapM (fun kc => do d <- diag_part LA (ocol_items (c_Ls_shifted LA (built LA sigmas returns means)) (snd kc));
                        Ok (fst kc, d)) (o_cols (c_Ls_shifted LA (built LA sigmas returns means)))
                 = Ok (map (fun k => (k, map (fun t => (t, dg k t)) avail)) (map fst sigmas))).
    { unfold built. cbn [c_Ls_shifted]. change (tl (forecast_times LA sigmas)) with avail. unfold tab. cbn [o_cols].
      rewrite mapM_map. apply mapM_ok. intros k Hk. cbn [fst snd]. unfold diag_part, ocol_items. cbn [o_idx].
      rewrite items_tab, mapM_map. rewrite (mapM_ok _ (fun t => (t, dg k t))); [reflexivity|].
      intros t Ht. reflexivity. }
    rewrite E3. clear E3.
    (* cases on the Cholesky factors *)
    assert (Enth : forall i, In i rg -> nth i times 0%Z = nth (a + i) avail 0%Z).
    { intros i Hi. unfold times. apply nth_sub. apply Hrg in Hi. lia. }
    assert (Eseq : seq (a + w - 1) (len + 1 - w) = map (fun i => a + i) rg).
    { unfold rg. generalize (len + 1 - w). intros m. replace (a + w - 1) with (a + (w - 1)) by lia.
      generalize (w - 1). clear. revert a; induction m as [|m IH]; intros a s; simpl; auto. f_equal.
      rewrite <- IH. f_equal. lia. }
    rewrite Eseq, mapM_map. clear Eseq.
    destruct (mapM_cases (fun i => do C <- or_raise (l_cholK LA (Q i)) LinAlgError; Ok (nth i times 0%Z, C)) rg)
      as [(pc & E)|(i & e & Hi & Ei & E)].
    - (* all definite *)
      rewrite E. cbn [bind]. rewrite (df_tabulated (map fst sigmas) avail dg) by (auto; apply keys_nil_scored).
      rewrite mapM_map.
      assert (Hsome : forall i, In i rg -> exists C, l_cholK LA (Q i) = Some C).
      { intros i Hi. destruct (mapM_inv _ _ _ E i Hi) as (y & Ey). destruct (l_cholK LA (Q i)); [eauto|discriminate]. }
      set (Cf := fun i => match l_cholK LA (Q i) with Some C => C | None => l_zeroK LA end).
      assert (Ep : pc = map (fun i => (nth i times 0%Z, Cf i)) rg).
      { pose proof E as E'. rewrite (mapM_ok _ (fun i => (nth i times 0%Z, Cf i))) in E'; [congruence|].
        intros i Hi. destruct (Hsome i Hi) as (C & EC). unfold Cf. rewrite EC. reflexivity. }
      match goal with |- context [bind (mapM ?g rg) _] =>
        assert (E4 : mapM g rg = Ok (map (fun i => (nth i times 0%Z, diags LA sigmas (window_at LA sigmas w (a + i)))) rg)) end.
      { apply mapM_ok. intros i Hi. rewrite (Eidx i Hi). pose proof (Hrg i Hi) as Hb.
        rewrite (pyget_nat times i 0%Z) by lia. rewrite (pyget_nat times (i + 1 - w) 0%Z) by lia. cbn [bind].
        unfold tab at 1. cbn [o_idx]. unfold times. rewrite !nth_sub by lia.
        rewrite truncate_ok by (auto; lia). cbn [bind].
        replace (a + i + 1 - (a + (i + 1 - w))) with w by lia.
        unfold A_mat, tab. cbn [o_cols]. rewrite mapM_map.
        rewrite (mapM_ok _ (fun k => concat (map (dg k) (window_at LA sigmas w (a + i))))).
        - cbn [bind]. unfold diags. rewrite map_map. reflexivity.
        - intros k Hk. cbn [snd].
          rewrite (mapM_ok _ (fun j => dg k (nth j avail 0%Z))).
          + cbn [bind]. f_equal. f_equal. rewrite <- (map_map (fun j => nth j avail 0%Z) (dg k)).
            rewrite sub_nth by lia. unfold window_at. fold avail. f_equal. f_equal. lia.
          + intros j Hj. apply in_seq in Hj. rewrite nth_map_lt with (a := 0%Z) by lia. reflexivity. }
      rewrite E4. clear E4. cbn [bind]. rewrite mapM_map. cbn [fst snd]. apply mapM_ext_in.
      intros i Hi.
      assert (Eg : dict_get Z.eqb pc (nth i times 0%Z) = Some (Cf i)).
      { rewrite Ep. apply dict_get_in.
        - rewrite map_map. cbn [fst]. apply NoDup_map_on; [|apply seq_NoDup].
          intros x y Hx Hy Exy. apply Hrg in Hx, Hy.
          rewrite (NoDup_nth times 0%Z) in Hnt. apply Hnt; lia.
        - apply in_map_iff. exists i; auto. }
      rewrite Eg. cbn [or_raise bind]. unfold posed. fold (Q i). destruct (Hsome i Hi) as (C & EC). unfold Cf. rewrite EC.
      rewrite (Enth i Hi). reflexivity.
    - (* some window is not definite *)
      rewrite E. cbn [bind]. symmetry.
      assert (e = LinAlgError) as -> by (destruct (l_cholK LA (Q i)); simpl in Ei; congruence).
      apply mapM_raise.
      + exists i. split; auto. unfold posed. fold (Q i). destruct (l_cholK LA (Q i)); simpl in Ei; [discriminate|auto].
      + intros j e' Hj. unfold posed. intros Hx. destruct (l_cholK LA (quad LA sigmas means returns (window_at LA sigmas w (a + j)))); inversion Hx; auto.
  Qed.
End Solve.
