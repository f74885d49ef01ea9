(** * combination.py: properties that hold for every arithmetic and every solver. *)
From Coq Require Import String List Bool ZArith Arith Lia.
From Verif Require Import Num Py ListFacts Combination SpecComb CombFacts CombBuild CombSolve CombRun.
Import ListNotations.

Section Props.
  Context (LA : LinAlg).
  Notation sigmas_t := (kdict (tdict (l_mat LA))).
  Notation means_t := (kdict (tdict (l_vec LA))).
  Notation returns_t := (tdict (l_vec LA)).
  Implicit Types (sigmas : sigmas_t) (means : option means_t) (returns : returns_t).

  Lemma posed_times sigmas means returns w l todo :
    (forall i, In i l -> i < length (scored LA sigmas)) ->
    mapM (posed LA sigmas means returns w) l = Ok todo ->
    Forall (fun tp => In (fst tp) (forecast_times LA sigmas)) todo.
  Proof.
    revert todo; induction l as [|i l IH]; simpl; intros todo Hl H; [inversion H; constructor|].
    unfold posed in H at 1. destruct (l_cholK LA _) as [C|]; simpl in H; [|discriminate].
    destruct (mapM _ l) as [r|]; simpl in H; [|discriminate]. inversion H; subst. constructor; auto.
    simpl. apply scored_incl, nth_In. apply Hl; auto.
  Qed.

  (** ** C23: schedule *)
  Theorem schedule_short sigmas returns means c slv window :
    dicts sigmas -> from_sigmas LA sigmas returns means = Ok c -> length (forecast_times LA sigmas) <= 1 ->
    solve LA slv c window None = ([], Some IndexError).
  Proof.
    intros Hd Hc Hl. destruct (from_sigmas_inv LA _ _ _ _ Hd Hc) as (_ & _ & _ & ->).
    unfold solve. rewrite prepare_empty; auto.
  Qed.

  Lemma combined_time sigmas means t w r : combined LA sigmas means t w = Some r -> r_time LA r = t /\ r_weights LA r = w.
  Proof.
    unfold combined. destruct (l_invT_mulv LA _ _); [|discriminate]. destruct (l_inv_sq LA _); [|discriminate].
    intros H; inversion H; auto.
  Qed.

  Theorem schedule sigmas returns means c slv window items :
    dicts sigmas -> from_sigmas LA sigmas returns means = Ok c ->
    increasing (forecast_times LA sigmas) -> returns_known LA sigmas returns ->
    2 <= length (forecast_times LA sigmas) ->
    solve LA slv c window None = (items, None) ->
    let w := eff (length (forecast_times LA sigmas)) window in
    length items = length (forecast_times LA sigmas) - w /\
    forall j r, nth_error items j = Some (Some r) -> r_time LA r = nth (w + j) (forecast_times LA sigmas) 0%Z.
  Proof.
    intros Hd Hc Hi Hr Hl Hs w. destruct (from_sigmas_inv LA _ _ _ _ Hd Hc) as (_ & _ & _ & ->).
    unfold solve in Hs. rewrite prepare_all in Hs by auto. rewrite eff_window_eq in Hs.
    change (let n := length (forecast_times LA sigmas) - 1 in
        match window with Some (S k) => Nat.min (S k) n | _ => n end) with w in Hs.
    assert (Hw : 1 <= w <= length (forecast_times LA sigmas) - 1) by (unfold w, eff; destruct window as [[|k]|]; lia).
    pose proof (scored_length LA sigmas) as Hsl.
    set (l := seq (w - 1) (length (scored LA sigmas) + 1 - w)) in *.
    destruct (mapM (posed LA sigmas means returns w) l) as [todo|e] eqn:E; [|discriminate].
    assert (HF := posed_times sigmas means returns w l todo).
    assert (HF' : Forall (fun tp => In (fst tp) (forecast_times LA sigmas)) todo).
    { apply HF; auto. intros i Hi'. apply in_seq in Hi'. lia. }
    pose proof (mapM_length _ _ _ E) as Ll. unfold l in Ll. rewrite seq_length in Ll.
    apply loop_ok in Hs; auto. destruct Hs as [L1 L2]. split; [lia|].
    intros j r Ej. assert (Hj : j < length todo) by (rewrite <- L1; apply nth_error_Some; congruence).
    destruct (nth_error todo j) as [[t p]|] eqn:Et; [|apply nth_error_None in Et; lia].
    destruct (L2 j (t, p) Et) as [_ Ee]. rewrite Ej in Ee. inversion Ee as [E2]. unfold entry_of in E2. cbn [fst snd] in E2.
    destruct (slv _ p) as [wt|]; [|discriminate]. symmetry in E2. apply combined_time in E2. destruct E2 as [-> _].
    assert (Hjl : j < length l) by (unfold l; rewrite seq_length; lia).
    pose proof (mapM_nth _ l todo j 0 (t, p) E Hjl) as En.
    assert (Hn : nth j todo (t, p) = (t, p)) by (apply nth_error_nth; auto). rewrite Hn in En.
    unfold l in En. rewrite seq_nth in En by lia. unfold posed in En.
    destruct (l_cholK LA _); [|discriminate]. inversion En. unfold scored.
    destruct (forecast_times LA sigmas) as [|a ft]; simpl in *; [lia|].
    replace (w + j) with (S (w - 1 + j)) by lia. reflexivity.
  Qed.

  (** ** C18: what is scored *)
  Lemma prev_consecutive l t : NoDup l -> In t (tl l) -> consecutive l (prev l t) t.
  Proof.
    induction l as [|a [|b l] IH]; intros Hn Ht; [destruct Ht|destruct Ht|].
    cbn [prev]. destruct (Z.eqb_spec b t).
    - subst. exists [], l. auto.
    - simpl in Ht. destruct Ht as [->|Ht]; [tauto|]. inversion Hn; subst.
      destruct (IH H2 Ht) as (l1 & l2 & E). exists (a :: l1), l2. simpl. f_equal. exact E.
  Qed.

  Notation pairs_quad := (SpecComb.pairs_quad LA).
  Notation pairs_diag := (SpecComb.pairs_diag LA).
  Lemma posed_explicit sigmas means returns w i t A P :
    dicts sigmas -> 1 <= w -> w - 1 <= i -> i < length (scored LA sigmas) ->
    posed LA sigmas means returns w i = Ok (t, (A, P)) ->
    exists pairs, length pairs = w /\
      (forall s u, In (s, u) pairs -> consecutive (forecast_times LA sigmas) s u) /\
      map snd pairs = sub (scored LA sigmas) (i + 1 - w) w /\ t = nth i (scored LA sigmas) 0%Z /\
      A = pairs_diag sigmas pairs /\ l_cholK LA (pairs_quad sigmas means returns pairs) = Some P.
  Proof.
    intros Hd Hw Hwi Hi H. unfold posed in H.
    destruct (l_cholK LA (quad LA sigmas means returns (window_at LA sigmas w i))) as [C|] eqn:E; [|discriminate].
    inversion H; subst. clear H.
    exists (map (fun u => (prev (forecast_times LA sigmas) u, u)) (window_at LA sigmas w i)).
    assert (Hlen : length (window_at LA sigmas w i) = w) by (unfold window_at; apply sub_length; lia).
    split; [rewrite map_length; auto|]. split.
    - intros s u Hin. apply in_map_iff in Hin. destruct Hin as (u' & Eu & Hu). inversion Eu; subst.
      apply prev_consecutive; [apply forecast_nodup; auto|]. apply sub_In in Hu. exact Hu.
    - split; [rewrite map_map; cbn [snd]; rewrite map_id; reflexivity|]. split; auto.
      split.
      + unfold SpecComb.pairs_diag, diags. apply map_ext. intros ks. f_equal. rewrite map_map. reflexivity.
      + rewrite <- E. f_equal. unfold SpecComb.pairs_quad, quad. rewrite map_map. reflexivity.
  Qed.

  (** ** C24: requested times *)
  Lemma memoryless_loop sigmas returns means f todo : forall h h',
    solve_loop LA (memoryless f) (built LA sigmas returns means) h todo =
    solve_loop LA (memoryless f) (built LA sigmas returns means) h' todo.
  Proof.
    induction todo as [|[t p] todo IH]; intros h h'; auto. cbn [solve_loop].
    change (memoryless f h p) with (f p). change (memoryless f h' p) with (f p).
    rewrite (IH (h ++ [p]) (h' ++ [p])). reflexivity.
  Qed.

  Lemma mapM_sub {A B} (g : A -> res B) l r a m : mapM g l = Ok r -> mapM g (sub l a m) = Ok (sub r a m).
  Proof.
    unfold sub. revert l r; induction a as [|a IH]; intros l r H.
    - simpl. revert l r H; induction m as [|m IHm]; intros [|x l] r H; simpl in *; auto; try (inversion H; auto; fail).
      destruct (g x); simpl in H; [|discriminate]. destruct (mapM g l) as [bs|] eqn:E; simpl in H; [|discriminate].
      inversion H; subst. simpl. rewrite (IHm l bs) by auto. reflexivity.
    - destruct l as [|x l]; simpl in *.
      + inversion H; subst. simpl. rewrite !firstn_nil. reflexivity.
      + destruct (g x); simpl in H; [|discriminate]. destruct (mapM g l) as [bs|] eqn:E; simpl in H; [|discriminate].
        inversion H; subst. simpl. apply IH; auto.
  Qed.

  Lemma loop_sub sigmas returns means f todo items a m :
    solve_loop LA (memoryless f) (built LA sigmas returns means) [] todo = (items, None) ->
    solve_loop LA (memoryless f) (built LA sigmas returns means) [] (sub todo a m) = (sub items a m, None).
  Proof.
    intros H. unfold sub.
    rewrite <- (firstn_skipn a todo) in H. apply loop_app in H. destruct H as (i1 & i2 & -> & E1 & E2).
    assert (L1 : length i1 = length (firstn a todo)).
    { clear -E1. revert i1 E1. generalize (@nil (problem LA)). generalize (firstn a todo). intros l.
      induction l as [|[t p] l IH]; intros h i1 E; cbn [solve_loop] in E; [inversion E; auto|].
      destruct (memoryless f h p) as [w|].
      - destruct (result_at LA _ t w); [|discriminate]. destruct (solve_loop LA _ _ _ l) as [is ex] eqn:El.
        cbn [fst snd] in E. inversion E; subst. simpl. f_equal. eapply IH; eauto.
      - destruct (solve_loop LA _ _ _ l) as [is ex] eqn:El.
        cbn [fst snd] in E. inversion E; subst. simpl. f_equal. eapply IH; eauto. }
    assert (Es : skipn a (i1 ++ i2) = i2 \/ (length todo <= a /\ i2 = [])).
    { destruct (le_lt_dec (length todo) a).
      - right. split; auto. rewrite skipn_all2 in E2 by auto. simpl in E2. inversion E2; auto.
      - left. rewrite firstn_length in L1. rewrite skipn_app. rewrite skipn_all2 by lia. simpl.
        replace (a - length i1) with 0 by lia. reflexivity. }
    rewrite (memoryless_loop _ _ _ _ _ _ []) in E2.
    assert (E2' := E2). rewrite <- (firstn_skipn m (skipn a todo)) in E2'. apply loop_app in E2'.
    destruct E2' as (j1 & j2 & Ej & F1 & F2). rewrite F1. f_equal.
    assert (Lj : length j1 = length (firstn m (skipn a todo))).
    { clear -F1. revert j1 F1. generalize (@nil (problem LA)). generalize (firstn m (skipn a todo)). intros l.
      induction l as [|[t p] l IH]; intros h i1 E; cbn [solve_loop] in E; [inversion E; auto|].
      destruct (memoryless f h p) as [w|].
      - destruct (result_at LA _ t w); [|discriminate]. destruct (solve_loop LA _ _ _ l) as [is ex] eqn:El.
        cbn [fst snd] in E. inversion E; subst. simpl. f_equal. eapply IH; eauto.
      - destruct (solve_loop LA _ _ _ l) as [is ex] eqn:El.
        cbn [fst snd] in E. inversion E; subst. simpl. f_equal. eapply IH; eauto. }
    destruct Es as [-> | [Hl ->]].
    - rewrite Ej. destruct (le_lt_dec (length (skipn a todo)) m).
      + rewrite (skipn_all2 (skipn a todo)) in F2 by auto. simpl in F2. inversion F2; subst. rewrite app_nil_r.
        rewrite firstn_all2; auto. rewrite Lj, firstn_length. lia.
      + rewrite firstn_length in Lj. rewrite firstn_app. replace (m - length j1) with 0 by lia. simpl. rewrite app_nil_r.
        symmetry; apply firstn_all2. lia.
    - destruct j1; [|discriminate]. rewrite app_nil_r. rewrite skipn_all2; [rewrite firstn_nil; auto|].
      rewrite L1, firstn_length. lia.
  Qed.

  Lemma sub_seq s n a m : a + m <= n -> sub (seq s n) a m = seq (s + a) m.
  Proof.
    intros H. unfold sub. replace n with (a + (m + (n - a - m))) by lia. rewrite seq_app, skipn_app, skipn_all2 by (rewrite seq_length; lia).
    rewrite seq_length, Nat.sub_diag. simpl. rewrite seq_app, firstn_app, seq_length, Nat.sub_diag. simpl. rewrite app_nil_r.
    apply firstn_all2. rewrite seq_length. lia.
  Qed.

  Theorem times_agree sigmas returns means c f window items ts z :
    dicts sigmas -> from_sigmas LA sigmas returns means = Ok c ->
    increasing (forecast_times LA sigmas) -> returns_known LA sigmas returns ->
    solve LA (memoryless f) c window None = (items, None) ->
    ts <> [] -> ts = sub (scored LA sigmas) z (length ts) ->
    let w := eff (length (forecast_times LA sigmas)) window in
    solve LA (memoryless f) c window (Some ts) =
      ((if w - 1 <=? z then sub items (z + 1 - w) (length ts) else sub items z (length ts + 1 - w)), None).
  Proof.
    intros Hd Hc Hi Hr Hs Hne Hts w. destruct (from_sigmas_inv LA _ _ _ _ Hd Hc) as (_ & _ & _ & ->).
    pose proof (scored_length LA sigmas) as Hsl.
    assert (Hz : z + length ts <= length (scored LA sigmas)).
    { assert (Hl := f_equal (@length Z) Hts). unfold sub in Hl at 1. rewrite firstn_length, skipn_length in Hl.
      destruct ts; [tauto|]. cbn [length] in *. lia. }
    assert (Hm : 1 <= length ts) by (destruct ts; [tauto|simpl; lia]).
    unfold solve in *. rewrite prepare_all in Hs by (auto; lia). rewrite (prepare_some LA _ _ _ _ ts z) by auto.
    rewrite eff_window_eq in *.
    change (let n := length (forecast_times LA sigmas) - 1 in
        match window with Some (S k) => Nat.min (S k) n | _ => n end) with w in *.
    assert (Hw : 1 <= w <= length (forecast_times LA sigmas) - 1) by (unfold w, eff; destruct window as [[|k]|]; lia).
    destruct (mapM _ (seq (w - 1) _)) as [todo|] eqn:E; [|discriminate].
    destruct (Nat.leb_spec (w - 1) z).
    - replace (seq z (length ts)) with (sub (seq (w - 1) (length (scored LA sigmas) + 1 - w)) (z + 1 - w) (length ts)).
      + rewrite (mapM_sub _ _ _ _ _ E). apply loop_sub; auto.
      + rewrite sub_seq by lia. f_equal. lia.
    - destruct (le_lt_dec w (length ts)).
      + replace (seq (z + w - 1) (length ts + 1 - w)) with (sub (seq (w - 1) (length (scored LA sigmas) + 1 - w)) z (length ts + 1 - w)).
        * rewrite (mapM_sub _ _ _ _ _ E). apply loop_sub; auto.
        * rewrite sub_seq by lia. f_equal. lia.
      + replace (length ts + 1 - w) with 0 by lia. simpl. unfold sub. reflexivity.
  Qed.

  Theorem times_errors sigmas returns means c slv window :
    dicts sigmas -> from_sigmas LA sigmas returns means = Ok c -> returns_known LA sigmas returns ->
    solve LA slv c window (Some []) = ([], Some IndexError) /\
    (forall t ts, ~ In t (scored LA sigmas) -> solve LA slv c window (Some (t :: ts)) = ([], Some KeyError)) /\
    (forall t ts, In t (scored LA sigmas) -> (forall z, t :: ts <> sub (scored LA sigmas) z (length (t :: ts))) ->
        solve LA slv c window (Some (t :: ts)) = ([], Some AssertionError)).
  Proof.
    intros Hd Hc Hr. destruct (from_sigmas_inv LA _ _ _ _ Hd Hc) as (_ & _ & _ & ->). unfold solve.
    split; [rewrite prepare_times_empty; auto|]. split.
    - intros t ts Ht. rewrite prepare_times_unknown; auto.
    - intros t ts Ht Hg. rewrite prepare_times_gap; auto.
  Qed.

  (** ** C25: solver failures *)
  Theorem solver_failures sigmas returns means c window times f items :
    dicts sigmas -> from_sigmas LA sigmas returns means = Ok c ->
    increasing (forecast_times LA sigmas) -> returns_known LA sigmas returns ->
    2 <= length (forecast_times LA sigmas) ->
    (forall ts, times = Some ts -> ts <> [] /\ exists z, ts = sub (scored LA sigmas) z (length ts)) ->
    solve LA (memoryless f) c window times = (items, None) ->
    exists posed_problems, length posed_problems = length items /\
      (forall i p, nth_error posed_problems i = Some p -> (nth_error items i = Some None <-> f p = None)) /\
      forall g, (forall p, g p = None \/ g p = f p) ->
        exists items', solve LA (memoryless g) c window times = (items', None) /\
          length items' = length items /\
          forall i p, nth_error posed_problems i = Some p ->
            nth_error items' i = match g p with None => Some None | Some _ => nth_error items i end.
  Proof.
    intros Hd Hc Hi Hr Hl Ht Hs. destruct (from_sigmas_inv LA _ _ _ _ Hd Hc) as (_ & _ & _ & ->).
    unfold solve in *. pose proof (scored_length LA sigmas) as Hsl.
    assert (Hp : exists l, (forall i, In i l -> i < length (scored LA sigmas)) /\
       prepare LA (built LA sigmas returns means) window times = mapM (posed LA sigmas means returns (eff_window LA (built LA sigmas returns means) window)) l).
    { destruct times as [ts|].
      - destruct (Ht ts eq_refl) as [Hne (z & Hz)].
        assert (Hz2 : z + length ts <= length (scored LA sigmas)).
        { assert (Hl' := f_equal (@length Z) Hz). unfold sub in Hl' at 1. rewrite firstn_length, skipn_length in Hl'.
          destruct ts; [tauto|]. cbn [length] in *. lia. }
        rewrite (prepare_some LA _ _ _ _ ts z) by auto. eexists. split; [|reflexivity].
        assert (1 <= eff_window LA (built LA sigmas returns means) window) by (rewrite eff_window_eq; cbv zeta; destruct window as [[|k]|]; lia).
        intros i Hin. destruct (_ <=? z); apply in_seq in Hin; lia.
      - rewrite prepare_all by auto. eexists. split; [|reflexivity]. intros i Hin. apply in_seq in Hin.
        rewrite eff_window_eq in Hin. cbv zeta in Hin. destruct window as [[|k]|]; lia. }
    destruct Hp as (l & Hll & Ep). rewrite Ep in *.
    destruct (mapM (posed LA sigmas means returns _) l) as [todo|] eqn:E; [|discriminate].
    pose proof (posed_times _ _ _ _ _ _ Hll E) as HF.
    apply loop_ok in Hs; auto. destruct Hs as [L1 L2].
    exists (map snd todo). split; [rewrite map_length; auto|].
    assert (Hnth : forall i p, nth_error (map snd todo) i = Some p -> exists t, nth_error todo i = Some (t, p)).
    { intros i p H. rewrite nth_error_map in H. destruct (nth_error todo i) as [[t p']|]; [|discriminate].
      simpl in H. inversion H; subst. eauto. }
    split.
    - intros i p Hip. destruct (Hnth i p Hip) as (t & Et). destruct (L2 _ _ Et) as [N1 N2]. rewrite N2.
      unfold entry_of, entry_fails, memoryless in *. cbn [fst snd] in *. destruct (f p) as [w|] eqn:Ef.
      + split; [|discriminate]. intros H. exfalso. apply N1. exists w. split; auto. congruence.
      + tauto.
    - intros g Hg.
      exists (map (fun tp => entry_of LA sigmas means (memoryless g) [] tp) todo). split.
      + apply loop_ok; auto. split; [rewrite map_length; auto|]. intros i tp Et. destruct (L2 _ _ Et) as [N1 N2]. split.
        * unfold entry_fails, memoryless in *. intros (w & E1 & E2). destruct (Hg (snd tp)) as [G|G]; [congruence|].
          apply N1. exists w. split; [congruence|auto].
        * rewrite nth_error_map, Et. reflexivity.
      + split; [rewrite map_length; auto|]. intros i p Hip. destruct (Hnth i p Hip) as (t & Et). destruct (L2 _ _ Et) as [N1 N2].
        rewrite nth_error_map, Et, N2. unfold option_map, entry_of, memoryless. cbn [fst snd].
        destruct (Hg p) as [G|G]; rewrite G; auto. destruct (f p); auto.
  Qed.

  (** ** C26: an indefinite window anywhere aborts the run *)
  Theorem indefinite_window sigmas returns means c slv window i :
    dicts sigmas -> from_sigmas LA sigmas returns means = Ok c ->
    increasing (forecast_times LA sigmas) -> returns_known LA sigmas returns ->
    let w := eff (length (forecast_times LA sigmas)) window in
    w - 1 <= i < length (scored LA sigmas) ->
    l_cholK LA (quad LA sigmas means returns (window_at LA sigmas w i)) = None ->
    solve LA slv c window None = ([], Some LinAlgError).
  Proof.
    intros Hd Hc Hi Hr w Hiw Hq. destruct (from_sigmas_inv LA _ _ _ _ Hd Hc) as (_ & _ & _ & ->).
    pose proof (scored_length LA sigmas) as Hsl. unfold solve. rewrite prepare_all by (auto; lia).
    rewrite eff_window_eq.
    change (let n := length (forecast_times LA sigmas) - 1 in
        match window with Some (S k) => Nat.min (S k) n | _ => n end) with w.
    match goal with |- context [mapM ?g ?l] => assert (E : mapM g l = Raise LinAlgError) end.
    { apply mapM_raise.
      - exists i. split; [apply in_seq; lia|]. unfold posed. rewrite Hq. auto.
      - intros j e Hj Hx. unfold posed in Hx. destruct (l_cholK LA (quad LA sigmas means returns (window_at LA sigmas w j))); inversion Hx; auto. }
    rewrite E. auto.
  Qed.

  Theorem missing_return sigmas returns means c slv window times :
    dicts sigmas -> from_sigmas LA sigmas returns means = Ok c -> ~ returns_known LA sigmas returns ->
    solve LA slv c window times = ([], Some KeyError).
  Proof.
    intros Hd Hc Hr. destruct (from_sigmas_inv LA _ _ _ _ Hd Hc) as (_ & _ & _ & ->).
    unfold solve, prepare. rewrite Lts_missing by auto. auto.
  Qed.

  (** ** C29: omitted means are zero means *)
  Notation zero_means := (SpecComb.zero_means LA).
  Theorem means_default sigmas returns : NoDup (map fst sigmas) ->
    from_sigmas LA sigmas returns (Some (zero_means sigmas)) = from_sigmas LA sigmas returns None.
  Proof.
    intros Hn. unfold from_sigmas.
    assert (E : means_of LA sigmas (Some (zero_means sigmas)) = means_of LA sigmas None).
    { rewrite means_of_ok; [reflexivity|]. intros ks Hk.
      exists (map (fun ts => (fst ts, l_vec0 LA)) (snd ks)). split.
      - apply kget_in; [unfold SpecComb.zero_means; rewrite map_map; auto|]. apply in_map_iff. exists ks; auto.
      - intros t. rewrite map_map. cbn [fst]. tauto. }
    rewrite E. reflexivity.
  Qed.

  (** ** C17: no look-ahead *)
  Lemma extends_get {V} (d d' : kdict (tdict V)) k t : extends d d' ->
    In t (match dict_get String.eqb d k with Some x => map fst x | None => [] end) ->
    (match dict_get String.eqb d' k with Some x => dict_get Z.eqb x t | None => None end) =
    (match dict_get String.eqb d k with Some x => dict_get Z.eqb x t | None => None end).
  Proof.
    intros H. induction H as [|[a x] [b y] d d' [E1 (ext & E2)] H IH]; simpl; [tauto|].
    cbn [fst snd] in *. subst b y. destruct (String.eqb k a); auto.
    clear. induction x as [|[u v] x IH]; simpl; [tauto|]. destruct (Z.eqb_spec t u); auto. intros [->|Ht]; [tauto|auto].
  Qed.
  Lemma extends_keys {V} (d d' : kdict (tdict V)) : extends d d' -> map fst d = map fst d'.
  Proof. induction 1 as [|a b d d' [E _] H IH]; simpl; auto. f_equal; auto. Qed.
  Lemma extends_times sigmas sigmas' : extends sigmas sigmas' ->
    exists ext, forecast_times LA sigmas' = forecast_times LA sigmas ++ ext.
  Proof.
    intros H. destruct H as [|a b d d' [E1 (ext & E2)] H]; simpl; [exists []; auto|].
    exists (map fst ext). rewrite E2, map_app. auto.
  Qed.

  Lemma factor_ext sigmas sigmas' k t : dicts sigmas -> same_times LA sigmas -> extends sigmas sigmas' ->
    In k (map fst sigmas) -> In t (forecast_times LA sigmas) -> factor LA sigmas' k t = factor LA sigmas k t.
  Proof.
    intros Hd Hs He Hk Ht.
    assert (E := extends_get sigmas sigmas' k t He).
    apply in_map_iff in Hk. destruct Hk as ([k' d] & Ek & Hk). cbn [fst] in Ek. subst k'.
    rewrite (kget_in _ _ _ (proj1 Hd) Hk) in E. specialize (E (proj2 (Hs _ t Hk) Ht)).
    unfold factor. rewrite (kget_in _ _ _ (proj1 Hd) Hk). rewrite <- E.
    destruct (dict_get String.eqb sigmas' k); auto.
  Qed.

  Lemma mean_ext sigmas means means' k t : dicts sigmas -> same_times LA sigmas -> means_ok LA sigmas means ->
    extends_opt means means' -> In k (map fst sigmas) -> In t (forecast_times LA sigmas) ->
    mean_at LA means' k t = mean_at LA means k t.
  Proof.
    intros Hd Hs Hm He Hk Ht. destruct means as [m|], means' as [m'|]; simpl in He; try tauto.
    assert (E := extends_get m m' k t He).
    apply in_map_iff in Hk. destruct Hk as ([k' d] & Ek & Hk). cbn [fst] in Ek. subst k'.
    destruct (Hm _ Hk) as (mk & Em & Hmk). cbn [fst snd] in *. rewrite Em in E.
    assert (Hin : In t (map fst mk)) by (apply Hmk; apply (Hs _ t Hk); auto). specialize (E Hin).
    unfold mean_at. rewrite Em. destruct (dict_get String.eqb m' k); [rewrite E; auto|].
    rewrite <- E. auto.
  Qed.

  Lemma prev_app l ext t : NoDup (l ++ ext) -> In t (tl l) -> prev (l ++ ext) t = prev l t.
  Proof.
    induction l as [|a [|b l] IH]; intros Hn Ht; [destruct Ht|destruct Ht|].
    change ((a :: b :: l) ++ ext) with (a :: b :: (l ++ ext)). cbn [prev].
    destruct (Z.eqb_spec b t); auto. simpl in Ht. destruct Ht as [->|Ht]; [tauto|]. inversion Hn; subst.
    apply IH; auto.
  Qed.

  Lemma loop_ext sigmas returns means sigmas' returns' means' slv todo : forall h,
    Forall (fun tp => forall w, result_at LA (built LA sigmas returns means) (fst tp) w =
                                result_at LA (built LA sigmas' returns' means') (fst tp) w) todo ->
    solve_loop LA slv (built LA sigmas returns means) h todo =
    solve_loop LA slv (built LA sigmas' returns' means') h todo.
  Proof.
    induction todo as [|[t p] todo IH]; intros h H; auto. inversion H as [|x l H1 H2]; subst. cbn [solve_loop].
    destruct (slv h p) as [w|].
    - cbn [fst] in H1. rewrite H1. destruct (result_at LA _ t w); auto. rewrite IH; auto.
    - rewrite IH; auto.
  Qed.

  Lemma increasing_app_l l1 l2 : increasing (l1 ++ l2) -> increasing l1.
  Proof.
    induction l1 as [|a [|b l1] IH]; intros H; try exact I. destruct H as [H1 H2]. split; [exact H1|apply IH; exact H2].
  Qed.

  Lemma map2_ext_l {A B C} (f g : A -> B -> C) l1 l2 : (forall x y, In x l1 -> f x y = g x y) -> map2 f l1 l2 = map2 g l1 l2.
  Proof. revert l2; induction l1 as [|a l1 IH]; intros [|b l2] H; simpl; auto. f_equal; [apply H; simpl; auto|apply IH; intros; apply H; simpl; auto]. Qed.
  Lemma map2_fst_ext {V V' B C} (d : kdict V) (d' : kdict V') (f : string -> B -> C) l :
    map fst d = map fst d' -> map2 (fun ks x => f (fst ks) x) d l = map2 (fun ks x => f (fst ks) x) d' l.
  Proof. intros E. rewrite <- (map2_map_l (fun k x => f k x) fst d), E, map2_map_l. auto. Qed.

  Lemma combined_ext sigmas means sigmas' means' t w :
    dicts sigmas -> same_times LA sigmas -> means_ok LA sigmas means ->
    extends sigmas sigmas' -> extends_opt means means' -> In t (forecast_times LA sigmas) ->
    combined LA sigmas means t w = combined LA sigmas' means' t w.
  Proof.
    intros Hd Hs Hm He Hem Ht. unfold combined.
    pose proof (extends_keys _ _ He) as Hk.
    rewrite (map2_fst_ext sigmas sigmas' (fun k x => l_scaleM LA x (factor LA sigmas k t)) w Hk).
    rewrite (map2_fst_ext sigmas sigmas' (fun k x => l_scaleV LA x (l_tmulv LA (factor LA sigmas k t) (mean_at LA means k t))) w Hk).
    rewrite (map2_ext_l (fun ks x => l_scaleM LA x (factor LA sigmas (fst ks) t)) (fun ks x => l_scaleM LA x (factor LA sigmas' (fst ks) t)) sigmas').
    2:{ intros ks y Hin. f_equal. symmetry. apply factor_ext; auto. rewrite Hk. apply in_map; auto. }
    rewrite (map2_ext_l (fun ks x => l_scaleV LA x (l_tmulv LA (factor LA sigmas (fst ks) t) (mean_at LA means (fst ks) t)))
                        (fun ks x => l_scaleV LA x (l_tmulv LA (factor LA sigmas' (fst ks) t) (mean_at LA means' (fst ks) t))) sigmas').
    2:{ intros ks y Hin. assert (In (fst ks) (map fst sigmas)) by (rewrite Hk; apply in_map; auto).
        rewrite (factor_ext sigmas sigmas'), (mean_ext sigmas means means'); auto. }
    reflexivity.
  Qed.

  Lemma map_fst_ext {V V' C} (d : kdict V) (d' : kdict V') (f : string -> C) :
    map fst d = map fst d' -> map (fun ks => f (fst ks)) d = map (fun ks => f (fst ks)) d'.
  Proof. intros E. rewrite <- (map_map fst f d), E, map_map. auto. Qed.

  Theorem no_look_ahead sigmas returns means sigmas' ext means' c c' slv w items' :
    dicts sigmas -> dicts sigmas' -> increasing (forecast_times LA sigmas') ->
    extends sigmas sigmas' -> extends_opt means means' ->
    from_sigmas LA sigmas returns means = Ok c -> from_sigmas LA sigmas' (returns ++ ext) means' = Ok c' ->
    returns_known LA sigmas returns -> returns_known LA sigmas' (returns ++ ext) ->
    1 <= w <= length (forecast_times LA sigmas) - 1 ->
    solve LA slv c' (Some w) None = (items', None) ->
    exists items more, solve LA slv c (Some w) None = (items, None) /\ items' = items ++ more /\
      length items = length (forecast_times LA sigmas) - w.
  Proof.
    intros Hd Hd' Hi' He Hem Hc Hc' Hr Hr' Hw Hs.
    destruct (from_sigmas_inv LA _ _ _ _ Hd Hc) as (Hst & Hf & Hm & ->).
    destruct (from_sigmas_inv LA _ _ _ _ Hd' Hc') as (Hst' & Hf' & Hm' & ->).
    destruct (extends_times _ _ He) as (ex & Ex).
    assert (Hi : increasing (forecast_times LA sigmas)) by (rewrite Ex in Hi'; eapply increasing_app_l; eauto).
    pose proof (scored_length LA sigmas) as Hsl. pose proof (scored_length LA sigmas') as Hsl'.
    assert (Hlen : length (forecast_times LA sigmas') = length (forecast_times LA sigmas) + length ex) by (rewrite Ex, app_length; auto).
    unfold solve in *. rewrite prepare_all in Hs by (auto; lia). rewrite prepare_all by (auto; lia).
    rewrite !eff_window_eq in *.
    assert (E1 : (let n := length (forecast_times LA sigmas) - 1 in match Some w with Some (S k) => Nat.min (S k) n | _ => n end) = w)
      by (destruct w; cbv zeta; lia).
    assert (E2 : (let n := length (forecast_times LA sigmas') - 1 in match Some w with Some (S k) => Nat.min (S k) n | _ => n end) = w)
      by (destruct w; cbv zeta; lia).
    rewrite E1. rewrite E2 in Hs. clear E1 E2.
    assert (Esc : scored LA sigmas' = scored LA sigmas ++ ex).
    { unfold scored. rewrite Ex. destruct (forecast_times LA sigmas); simpl in *; [lia|auto]. }
    assert (Ep : forall i, w - 1 <= i < length (scored LA sigmas) ->
        posed LA sigmas' means' (returns ++ ext) w i = posed LA sigmas means returns w i).
    { intros i Hir.
      assert (Ewin : window_at LA sigmas' w i = window_at LA sigmas w i).
      { unfold window_at. rewrite <- !(sub_nth _ _ _ 0%Z) by lia. apply map_ext_in. intros j Hj. apply in_seq in Hj.
        rewrite Esc. apply app_nth1. lia. }
      assert (Hprev : forall t, In t (window_at LA sigmas w i) -> prev (forecast_times LA sigmas') t = prev (forecast_times LA sigmas) t).
      { intros t Ht. rewrite Ex. apply prev_app; [rewrite <- Ex; apply forecast_nodup; auto|]. apply sub_In in Ht. exact Ht. }
      pose proof (extends_keys _ _ He) as Hk.
      assert (Hfac : forall k t, In k (map fst sigmas) -> In t (window_at LA sigmas w i) ->
          factor LA sigmas' k (prev (forecast_times LA sigmas') t) = factor LA sigmas k (prev (forecast_times LA sigmas) t)).
      { intros k t Hkk Ht. rewrite Hprev by auto. apply factor_ext; auto. apply scored_prev_In. apply sub_In in Ht. exact Ht. }
      assert (Eq : quad LA sigmas' means' (returns ++ ext) (window_at LA sigmas' w i) = quad LA sigmas means returns (window_at LA sigmas w i)).
      { rewrite Ewin. unfold quad. f_equal. apply map_ext_in. intros t Ht. f_equal. f_equal.
        rewrite <- (map_fst_ext sigmas sigmas' (fun k => score LA sigmas' means' (returns ++ ext) k t)) by auto.
        apply map_ext_in. intros ks Hks. unfold score. cbv zeta.
        assert (In (fst ks) (map fst sigmas)) by (apply in_map; auto).
        rewrite Hfac by auto. f_equal; f_equal.
        - unfold return_at. assert (Hin := Ht). apply sub_In in Hin. apply Hr in Hin.
          destruct (dict_get_key _ _ Hin) as (v & Ev). rewrite Ev.
          assert (Eapp : dict_get Z.eqb (returns ++ ext) t = Some v).
          { clear -Ev. induction returns as [|[u x] l IH]; simpl in *; [discriminate|]. destruct (t =? u)%Z; auto. }
          rewrite Eapp. auto.
        - rewrite Hprev by auto. apply (mean_ext sigmas); auto. apply scored_prev_In. apply sub_In in Ht. exact Ht. }
      assert (Ed : diags LA sigmas' (window_at LA sigmas' w i) = diags LA sigmas (window_at LA sigmas w i)).
      { rewrite Ewin. unfold diags.
        rewrite <- (map_fst_ext sigmas sigmas' (fun k => concat (map (fun t => l_diag LA (factor LA sigmas' k (prev (forecast_times LA sigmas') t))) (window_at LA sigmas w i)))) by auto.
        apply map_ext_in. intros ks Hks. f_equal. apply map_ext_in. intros t Ht. rewrite Hfac; auto. apply in_map; auto. }
      unfold posed. rewrite Eq, Ed, Esc, app_nth1 by lia. auto. }
    assert (Eseq : seq (w - 1) (length (scored LA sigmas') + 1 - w) =
       seq (w - 1) (length (scored LA sigmas) + 1 - w) ++ seq (length (scored LA sigmas)) (length ex)).
    { replace (length (scored LA sigmas') + 1 - w) with ((length (scored LA sigmas) + 1 - w) + length ex) by lia.
      rewrite seq_app. f_equal. f_equal. lia. }
    rewrite Eseq, mapM_app in Hs.
    set (l := seq (w - 1) (length (scored LA sigmas) + 1 - w)) in *.
    assert (El : mapM (posed LA sigmas' means' (returns ++ ext) w) l = mapM (posed LA sigmas means returns w) l).
    { apply mapM_ext_in. intros i Hin. apply in_seq in Hin. apply Ep. lia. }
    rewrite El in Hs.
    destruct (mapM (posed LA sigmas means returns w) l) as [todo|] eqn:E; cbn [bind] in Hs; [|discriminate].
    destruct (mapM _ (seq (length (scored LA sigmas)) (length ex))) as [todo2|] eqn:E2; cbn [bind] in Hs; [|discriminate].
    apply loop_app in Hs. destruct Hs as (i1 & i2 & -> & S1 & S2).
    assert (HF : Forall (fun tp => In (fst tp) (forecast_times LA sigmas)) todo).
    { eapply posed_times; [|exact E]. intros i Hin. apply in_seq in Hin. lia. }
    assert (S1' : solve_loop LA slv (built LA sigmas returns means) [] todo = (i1, None)).
    { rewrite <- S1. apply loop_ext. eapply Forall_impl; [|exact HF]. intros tp Htp wt.
      rewrite !result_at_eq; auto.
      - rewrite (combined_ext sigmas means sigmas' means'); auto.
      - rewrite Ex. apply in_or_app; auto. }
    exists i1, i2. split; auto. split; auto.
    apply loop_ok in S1'; auto. destruct S1' as [L1 _]. rewrite L1, (mapM_length _ _ _ E). unfold l. rewrite seq_length. lia.
  Qed.
End Props.
