(** * Where every yielded Result comes from (any arithmetic, any optimiser, any window and times). *)
From Coq Require Import String List Bool ZArith Arith Lia.
From Verif Require Import Num Py ListFacts Combination SpecComb CombFacts CombBuild CombSolve CombRun CombProps.
Import ListNotations.

Section Items.
  Context (LA : LinAlg).

  Lemma result_at_in sigmas returns means t w r :
    result_at LA (built LA sigmas returns means) t w = Ok r -> In t (forecast_times LA sigmas).
  Proof.
    unfold result_at, oloc. cbn [c_Ls built]. rewrite o_idx_tab.
    destruct (pos_of (forecast_times LA sigmas) t) eqn:E; [|discriminate]. intros _.
    clear -E. revert n E. induction (forecast_times LA sigmas) as [|u l IH]; simpl; intros n E; [discriminate|].
    destruct (Z.eqb_spec u t); [auto|]. destruct (pos_of l t); [|discriminate]. right; eapply IH; eauto.
  Qed.

  Lemma loop_items sigmas returns means slv todo : forall h items ex r,
    solve_loop LA slv (built LA sigmas returns means) h todo = (items, ex) -> In (Some r) items ->
    exists h' t p w, In (t, p) todo /\ slv h' p = Some w /\ In t (forecast_times LA sigmas) /\
                   combined LA sigmas means t w = Some r.
  Proof.
    induction todo as [|[t p] todo IH]; intros h items ex r H Hin; cbn [solve_loop] in H.
    - inversion H; subst. destruct Hin.
    - destruct (slv h p) as [w|] eqn:Es.
      + destruct (result_at LA _ t w) as [r0|] eqn:Er; [|inversion H; subst; destruct Hin].
        destruct (solve_loop LA _ _ _ todo) as [is e] eqn:El. cbn [fst snd] in H. inversion H; subst.
        destruct Hin as [E|Hin].
        * inversion E; subst. pose proof (result_at_in _ _ _ _ _ _ Er) as Ht.
          rewrite result_at_eq in Er by auto. destruct (combined LA sigmas means t w) eqn:Ec; [|discriminate].
          inversion Er; subst. exists h, t, p, w. simpl; auto.
        * destruct (IH _ _ _ _ El Hin) as (h' & t' & p' & w' & H1 & H2). exists h', t', p', w'. simpl; auto.
      + destruct (solve_loop LA _ _ _ todo) as [is e] eqn:El. cbn [fst snd] in H. inversion H; subst.
        destruct Hin as [E|Hin]; [discriminate|].
        destruct (IH _ _ _ _ El Hin) as (h' & t' & p' & w' & H1 & H2). exists h', t', p', w'. simpl; auto.
  Qed.

  Theorem solve_items sigmas returns means c slv window times items ex r :
    dicts sigmas -> from_sigmas LA sigmas returns means = Ok c ->
    solve LA slv c window times = (items, ex) -> In (Some r) items ->
    exists h t p w, slv h p = Some w /\ In t (forecast_times LA sigmas) /\
                    combined LA sigmas means t w = Some r.
  Proof.
    intros Hd Hc Hs Hin. destruct (from_sigmas_inv LA _ _ _ _ Hd Hc) as (_ & _ & _ & ->).
    unfold solve in Hs. destruct (prepare LA _ window times) as [todo|e]; [|inversion Hs; subst; destruct Hin].
    destruct (loop_items _ _ _ _ _ _ _ _ _ Hs Hin) as (h & t & p & w & _ & H). exists h, t, p, w; auto.
  Qed.

  (** Every problem handed to the optimiser is one of the posed ones, whatever window and times. *)
  Lemma returns_known_dec sigmas returns : {returns_known LA sigmas returns} + {~ returns_known LA sigmas returns}.
  Proof.
    unfold returns_known.
    destruct (Forall_dec (fun t => In t (map fst returns)) (fun t => in_dec Z.eq_dec t _) (scored LA sigmas)) as [H|H].
    - left. rewrite Forall_forall in H. auto.
    - right. intros H'. apply H. apply Forall_forall. auto.
  Qed.

  Lemma pos_of_nth (l : list Z) z t : NoDup l -> nth_error l z = Some t -> pos_of l t = Some z.
  Proof.
    revert z; induction l as [|a l IH]; intros [|z] Hn H; simpl in *; try discriminate.
    - inversion H; subst. rewrite Z.eqb_refl. auto.
    - inversion Hn as [|x y Hx Hy]; subst. destruct (Z.eqb_spec a t).
      + subst. apply nth_error_In in H. tauto.
      + rewrite (IH z) by auto. auto.
  Qed.

  Lemma prepare_posed sigmas returns means window times todo :
    dicts sigmas -> increasing (forecast_times LA sigmas) ->
    prepare LA (built LA sigmas returns means) window times = Ok todo ->
    returns_known LA sigmas returns /\ 2 <= length (forecast_times LA sigmas) /\
    let w := eff (length (forecast_times LA sigmas)) window in
    1 <= w <= length (scored LA sigmas) /\
    let l := positions (scored LA sigmas) w times in
    mapM (posed LA sigmas means returns w) l = Ok todo /\
    forall i, In i l -> w - 1 <= i < length (scored LA sigmas).
  Proof.
    intros Hd Hi Hp. pose proof (scored_length LA sigmas) as Hsl.
    assert (Hr : returns_known LA sigmas returns).
    { destruct (returns_known_dec sigmas returns) as [H|H]; auto. unfold prepare in Hp.
      rewrite Lts_missing in Hp by auto. discriminate. }
    assert (Hl : 2 <= length (forecast_times LA sigmas)).
    { destruct times as [[|t ts]|].
      - rewrite prepare_times_empty in Hp by auto. discriminate.
      - destruct (in_dec Z.eq_dec t (scored LA sigmas)) as [H|H].
        + assert (length (scored LA sigmas) <> 0) by (destruct (scored LA sigmas); [destruct H|simpl; lia]). lia.
        + rewrite prepare_times_unknown in Hp by auto. discriminate.
      - destruct (le_lt_dec (length (forecast_times LA sigmas)) 1) as [H|H]; [|lia].
        rewrite prepare_empty in Hp by auto. discriminate. }
    split; auto. split; auto. intros w.
    assert (Hw : 1 <= w <= length (forecast_times LA sigmas) - 1) by (unfold w, eff; destruct window as [[|k]|]; lia).
    split; [lia|].
    assert (Ew : eff_window LA (built LA sigmas returns means) window = w) by (rewrite eff_window_eq; reflexivity).
    destruct times as [[|t ts]|].
    - rewrite prepare_times_empty in Hp by auto. discriminate.
    - destruct (in_dec Z.eq_dec t (scored LA sigmas)) as [H|H]; [|rewrite prepare_times_unknown in Hp by auto; discriminate].
      destruct (Exists_dec (fun z => t :: ts = sub (scored LA sigmas) z (length (t :: ts))) (seq 0 (length (scored LA sigmas)))
                 (fun z => list_eq_dec Z.eq_dec _ _)) as [Hz|Hz].
      + apply Exists_exists in Hz. destruct Hz as (z & _ & Hz).
        assert (Hzl : z + length (t :: ts) <= length (scored LA sigmas)).
        { assert (Hl' := f_equal (@length Z) Hz). unfold sub in Hl' at 1. rewrite firstn_length, skipn_length in Hl'.
          cbn [length] in *. lia. }
        rewrite (prepare_some LA sigmas returns means window (t :: ts) z) in Hp; auto; [|discriminate].
        rewrite Ew in Hp. intros l. assert (El : l = if w - 1 <=? z then seq z (length (t :: ts)) else seq (z + w - 1) (length (t :: ts) + 1 - w)).
        { unfold l, positions. rewrite (pos_of_nth _ z t); auto.
          - assert (Hn := forecast_nodup LA sigmas Hd). unfold scored. destruct (forecast_times LA sigmas); [constructor|inversion Hn; auto].
          - assert (Hne := f_equal (fun l => nth_error l 0) Hz). simpl in Hne. unfold sub in Hne.
            assert (Ho := nth_error_nth' (scored LA sigmas) 0%Z (n := z)). cbn [length] in Hzl.
            rewrite Ho by lia. f_equal. clear -Hz Hzl.
            assert (E : nth 0 (sub (scored LA sigmas) z (S (length ts))) 0%Z = nth z (scored LA sigmas) 0%Z).
            { unfold sub. destruct (skipn z (scored LA sigmas)) eqn:Es.
              - apply f_equal with (f := @length _) in Es. rewrite skipn_length in Es. simpl in Es. lia.
              - simpl. rewrite <- (firstn_skipn z (scored LA sigmas)), app_nth2; rewrite firstn_length_le by lia; [|lia].
                rewrite Nat.sub_diag, Es. auto. }
            rewrite <- E. change (length (t :: ts)) with (S (length ts)) in Hz. rewrite <- Hz. auto. }
        rewrite El. split; [exact Hp|]. intros i.
        destruct (Nat.leb_spec (w - 1) z); rewrite in_seq; lia.
      + rewrite prepare_times_gap in Hp; auto; [discriminate|]. intros z E. apply Hz. apply Exists_exists. exists z. split; auto.
        apply in_seq. split; [lia|]. destruct (le_lt_dec (length (scored LA sigmas)) z); [|lia].
        unfold sub in E. rewrite skipn_all2 in E by auto. rewrite firstn_nil in E. discriminate.
    - rewrite prepare_all in Hp by auto. rewrite Ew in Hp. split; [exact Hp|]. intros i. unfold positions. rewrite in_seq. lia.
  Qed.

  Lemma mapM_in {A B} (f : A -> res B) l r y : mapM f l = Ok r -> In y r -> exists x, In x l /\ f x = Ok y.
  Proof.
    revert r; induction l as [|a l IH]; simpl; intros r H Hy; [inversion H; subst; destruct Hy|].
    destruct (f a) eqn:E; simpl in H; [|discriminate]. destruct (mapM f l) eqn:E2; simpl in H; [|discriminate].
    inversion H; subst. destruct Hy as [->|Hy]; [exists a; auto|]. destruct (IH _ eq_refl Hy) as (x & H1 & H2). exists x; auto.
  Qed.

  (** Each problem in explicit form: the pairs (forecast time, next time) it scores. *)
  Theorem prepare_pairs sigmas returns means c window times todo t p :
    dicts sigmas -> from_sigmas LA sigmas returns means = Ok c -> increasing (forecast_times LA sigmas) ->
    prepare LA c window times = Ok todo -> In (t, p) todo ->
    exists pairs, length pairs = eff (length (forecast_times LA sigmas)) window /\
      (forall s u, In (s, u) pairs -> consecutive (forecast_times LA sigmas) s u) /\
      (exists a, map snd pairs = sub (scored LA sigmas) a (length pairs)) /\ last (map snd pairs) 0%Z = t /\
      (forall s u, In (s, u) pairs -> In u (map fst returns)) /\
      fst p = pairs_diag LA sigmas pairs /\ l_cholK LA (pairs_quad LA sigmas means returns pairs) = Some (snd p).
  Proof.
    intros Hd Hc Hi Hp Hin. destruct (from_sigmas_inv LA _ _ _ _ Hd Hc) as (_ & _ & _ & ->).
    destruct (prepare_posed _ _ _ _ _ _ Hd Hi Hp) as (Hr & Hl & Hw & El & Hil).
    destruct (mapM_in _ _ _ _ El Hin) as (i & Hil' & Ei). specialize (Hil i Hil').
    set (w := eff _ window) in *.
    destruct p as [A P]. destruct (posed_explicit LA _ _ _ _ _ _ _ _ Hd (proj1 Hw) (proj1 Hil) (proj2 Hil) Ei)
      as (pairs & H1 & H2 & H3 & H4 & H5 & H6).
    exists pairs. split; auto. split; auto. split; [eexists; rewrite H1; eauto|]. split; [|split; auto].
    - rewrite H3, H4. clear -Hil Hw. unfold sub.
      replace (firstn w (skipn (i + 1 - w) (scored LA sigmas)))
        with (firstn (w - 1) (skipn (i + 1 - w) (scored LA sigmas)) ++ [nth i (scored LA sigmas) 0%Z]).
      + apply last_last.
      + replace w with (w - 1 + 1) at 3 by lia.
        assert (E : forall (l : list Z) a m, a + m < length l -> firstn m (skipn a l) ++ [nth (a + m) l 0%Z] = firstn (m + 1) (skipn a l)).
        { clear. induction l as [|x l IH]; simpl; [lia|]. intros [|a] m H; simpl.
          - destruct m as [|m]; simpl; auto. f_equal. apply (IH 0 m). lia.
          - rewrite <- IH by lia. reflexivity. }
        rewrite <- E by lia. repeat f_equal. lia.
    - intros s u Hsu. apply Hr. apply in_map with (f := snd) in Hsu. rewrite H3 in Hsu. simpl in Hsu.
      unfold sub in Hsu. rewrite <- (firstn_skipn (i + 1 - w) (scored LA sigmas)). apply in_or_app; right.
      rewrite <- (firstn_skipn w (skipn (i + 1 - w) (scored LA sigmas))). apply in_or_app; left. auto.
  Qed.

  Definition pairs_at sigmas (w i : nat) : list (time * time) :=
    map (fun u => (prev (forecast_times LA sigmas) u, u)) (window_at LA sigmas w i).
  Lemma quad_pairs_at sigmas means returns w i :
    quad LA sigmas means returns (window_at LA sigmas w i) = pairs_quad LA sigmas means returns (pairs_at sigmas w i).
  Proof. unfold quad, pairs_quad, pairs_at. rewrite map_map. reflexivity. Qed.
  Lemma diags_pairs_at sigmas w i :
    diags LA sigmas (window_at LA sigmas w i) = pairs_diag LA sigmas (pairs_at sigmas w i).
  Proof. unfold diags, pairs_diag, pairs_at. apply map_ext. intros ks. rewrite map_map. reflexivity. Qed.
  Lemma posed_at sigmas means returns w i t p : posed LA sigmas means returns w i = Ok (t, p) ->
    t = nth i (scored LA sigmas) 0%Z /\ fst p = pairs_diag LA sigmas (pairs_at sigmas w i) /\
    l_cholK LA (pairs_quad LA sigmas means returns (pairs_at sigmas w i)) = Some (snd p).
  Proof.
    unfold posed. rewrite quad_pairs_at, diags_pairs_at.
    destruct (l_cholK LA (pairs_quad LA sigmas means returns (pairs_at sigmas w i))) as [C|]; [|discriminate].
    intros H; inversion H; subst. auto.
  Qed.
  Lemma pairs_at_consecutive sigmas w i s u : dicts sigmas -> In (s, u) (pairs_at sigmas w i) ->
    consecutive (forecast_times LA sigmas) s u.
  Proof.
    intros Hd H. apply in_map_iff in H. destruct H as (u' & E & H). inversion E; subst.
    apply prev_consecutive; [apply forecast_nodup; auto|]. change (In u (scored LA sigmas)).
    unfold window_at, sub in H. rewrite <- (firstn_skipn (i + 1 - w) (scored LA sigmas)). apply in_or_app; right.
    rewrite <- (firstn_skipn w (skipn (i + 1 - w) (scored LA sigmas))). apply in_or_app; left. auto.
  Qed.
  Lemma consecutive_in l s u : consecutive l s u -> In s l /\ In u l.
  Proof. intros (l1 & l2 & ->). split; apply in_or_app; right; simpl; auto. Qed.

  (** All items of a run, position by position. *)
  Theorem solve_run sigmas returns means c slv window times items :
    dicts sigmas -> from_sigmas LA sigmas returns means = Ok c -> increasing (forecast_times LA sigmas) ->
    solve LA slv c window times = (items, None) ->
    let w := eff (length (forecast_times LA sigmas)) window in
    let l := positions (scored LA sigmas) w times in
    length items = length l /\ (forall i, In i l -> w - 1 <= i < length (scored LA sigmas)) /\
    forall j i, nth_error l j = Some i -> exists h p,
      posed LA sigmas means returns w i = Ok (nth i (scored LA sigmas) 0%Z, p) /\
      match slv h p with
      | None => nth_error items j = Some None
      | Some x => exists r, combined LA sigmas means (nth i (scored LA sigmas) 0%Z) x = Some r /\ nth_error items j = Some (Some r)
      end.
  Proof.
    intros Hd Hc Hi Hs. destruct (from_sigmas_inv LA _ _ _ _ Hd Hc) as (_ & _ & _ & ->).
    unfold solve in Hs. destruct (prepare LA _ window times) as [todo|e] eqn:Hp; [|discriminate].
    destruct (prepare_posed _ _ _ _ _ _ Hd Hi Hp) as (Hr & Hl & Hw & El & Hil).
    intros w l. fold w l in El, Hil.
    assert (Ht : Forall (fun tp => In (fst tp) (forecast_times LA sigmas)) todo).
    { eapply posed_times; [|exact El]. intros i Hin. apply Hil; auto. }
    apply loop_ok in Hs; auto. destruct Hs as [Hlen Hs].
    assert (Hlt : length todo = length l).
    { clear -El. revert todo El; induction l as [|a l IH]; simpl; intros todo H; [inversion H; auto|].
      destruct (posed LA _ _ _ _ a); simpl in H; [|discriminate]. destruct (mapM _ l); simpl in H; [|discriminate].
      inversion H; subst. simpl. f_equal. auto. }
    split; [congruence|]. split; [auto|]. intros j i Hj.
    assert (Hn : exists tp, nth_error todo j = Some tp /\ posed LA sigmas means returns w i = Ok tp).
    { clear -El Hj. revert todo El j Hj; induction l as [|a l IH]; intros todo H [|j] Hj; simpl in *; try discriminate;
      (destruct (posed LA _ _ _ _ a) eqn:Ea; simpl in H; [|discriminate]; destruct (mapM _ l) eqn:Em; simpl in H; [|discriminate];
       inversion H; subst; simpl).
      - inversion Hj; subst. eauto.
      - eauto. }
    destruct Hn as ([t p] & Hn & Ep). destruct (posed_at _ _ _ _ _ _ _ Ep) as (-> & _ & _).
    destruct (Hs _ _ Hn) as [Hf Hit]. simpl in *. exists (map snd (firstn j todo)), p. split; auto.
    unfold entry_of, entry_fails in *. simpl in *. destruct (slv (map snd (firstn j todo)) p) as [x|] eqn:Ex; auto.
    destruct (combined LA sigmas means _ x) as [r|] eqn:Er; [eauto|]. exfalso. apply Hf. eauto.
  Qed.

  Notation valid_times := (SpecComb.valid_times LA).
  Lemma scored_nodup sigmas : dicts sigmas -> NoDup (scored LA sigmas).
  Proof.
    intros Hd. assert (Hn := forecast_nodup LA sigmas Hd). unfold scored.
    destruct (forecast_times LA sigmas); [constructor|inversion Hn; auto].
  Qed.

  Lemma prepare_positions sigmas returns means window times :
    dicts sigmas -> increasing (forecast_times LA sigmas) -> returns_known LA sigmas returns ->
    2 <= length (forecast_times LA sigmas) -> valid_times sigmas times ->
    let w := eff (length (forecast_times LA sigmas)) window in
    prepare LA (built LA sigmas returns means) window times =
    mapM (posed LA sigmas means returns w) (positions (scored LA sigmas) w times).
  Proof.
    intros Hd Hi Hr Hl Hv w.
    assert (Ew : eff_window LA (built LA sigmas returns means) window = w) by (rewrite eff_window_eq; reflexivity).
    destruct times as [[|t ts]|].
    - destruct (Hv [] eq_refl). tauto.
    - destruct (Hv _ eq_refl) as (_ & z & Hz).
      assert (Hzl : z + length (t :: ts) <= length (scored LA sigmas)).
      { assert (Hl' := f_equal (@length Z) Hz). unfold sub in Hl' at 1. rewrite firstn_length, skipn_length in Hl'.
        cbn [length] in *. lia. }
      rewrite (prepare_some LA sigmas returns means window (t :: ts) z); auto; [|discriminate].
      rewrite Ew. f_equal. unfold positions.
      assert (Et : nth z (scored LA sigmas) 0%Z = t).
      { assert (E : nth 0 (sub (scored LA sigmas) z (S (length ts))) 0%Z = nth z (scored LA sigmas) 0%Z).
        { cbn [length] in Hzl. unfold sub. destruct (skipn z (scored LA sigmas)) eqn:Es.
          - apply f_equal with (f := @length _) in Es. rewrite skipn_length in Es. simpl in Es. lia.
          - simpl. rewrite <- (firstn_skipn z (scored LA sigmas)), app_nth2; rewrite firstn_length_le by lia; [|lia].
            rewrite Nat.sub_diag, Es. auto. }
        rewrite <- E. change (length (t :: ts)) with (S (length ts)) in Hz. rewrite <- Hz. auto. }
      assert (Ep : pos_of (scored LA sigmas) t = Some z).
      { rewrite <- Et. apply CombFacts.pos_of_nth; [apply scored_nodup; auto|]. cbn [length] in Hzl. lia. }
      rewrite Ep. auto.
    - rewrite prepare_all by auto. rewrite Ew. reflexivity.
  Qed.

  Theorem indefinite_window_any sigmas returns means c slv window times i :
    dicts sigmas -> from_sigmas LA sigmas returns means = Ok c ->
    increasing (forecast_times LA sigmas) -> returns_known LA sigmas returns ->
    2 <= length (forecast_times LA sigmas) -> valid_times sigmas times ->
    let w := eff (length (forecast_times LA sigmas)) window in
    In i (positions (scored LA sigmas) w times) ->
    l_cholK LA (quad LA sigmas means returns (window_at LA sigmas w i)) = None ->
    solve LA slv c window times = ([], Some LinAlgError).
  Proof.
    intros Hd Hc Hi Hr Hl Hv w Hin Hq. destruct (from_sigmas_inv LA _ _ _ _ Hd Hc) as (_ & _ & _ & ->).
    unfold solve. rewrite prepare_positions by auto. fold w.
    assert (E : mapM (posed LA sigmas means returns w) (positions (scored LA sigmas) w times) = Raise LinAlgError).
    { apply mapM_raise.
      - exists i. split; auto. unfold posed. rewrite Hq. auto.
      - intros x e Hx. unfold posed.
        destruct (l_cholK LA (quad LA sigmas means returns (window_at LA sigmas w x))); [discriminate|].
        intros H; inversion H; auto. }
    rewrite E. auto.
  Qed.
End Items.
