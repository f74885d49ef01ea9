(** * combination.py: runs of solve(). *)
From Coq Require Import String List Bool ZArith Arith Lia.
From Verif Require Import Num Py ListFacts Combination SpecComb CombFacts CombBuild CombSolve.
Import ListNotations.

Section Run.
  Context (LA : LinAlg).
  Notation sigmas_t := (kdict (tdict (l_mat LA))).
  Notation means_t := (kdict (tdict (l_vec LA))).
  Notation returns_t := (tdict (l_vec LA)).
  Implicit Types (sigmas : sigmas_t) (means : option means_t) (returns : returns_t).

  (** ** One result *)
  Lemma map2_map_l {A B C D} (f : B -> C -> D) (g : A -> B) l1 l2 :
    map2 f (map g l1) l2 = map2 (fun x y => f (g x) y) l1 l2.
  Proof. revert l2; induction l1; intros [|y l2]; simpl; auto. f_equal; auto. Qed.

  Lemma result_at_eq sigmas returns means t w : In t (forecast_times LA sigmas) ->
    result_at LA (built LA sigmas returns means) t w = or_raise (combined LA sigmas means t w) LinAlgError.
  Proof.
    intros Ht. unfold result_at, built. cbn [c_Ls c_nus].
    rewrite !oloc_tab by auto. cbn [bind].
    rewrite <- (map_map (fun k => factor LA sigmas k t) Some), opt_cells_some. cbn [bind].
    rewrite <- (map_map (fun k => l_tmulv LA (factor LA sigmas k t) (mean_at LA means k t)) Some), opt_cells_some. cbn [bind].
    unfold combined. rewrite !map_map, !map2_map_l.
    destruct (l_invT_mulv LA _ _); cbn [or_raise bind]; auto.
    destruct (l_inv_sq LA _); auto.
  Qed.

  (** ** The loop *)
  Definition entry_of sigmas means (slv : solver LA) (h : list (problem LA)) (tp : time * problem LA)
    : option (Result LA) :=
    match slv h (snd tp) with Some w => combined LA sigmas means (fst tp) w | None => None end.
  Definition entry_fails sigmas means (slv : solver LA) h (tp : time * problem LA) : Prop :=
    exists w, slv h (snd tp) = Some w /\ combined LA sigmas means (fst tp) w = None.

  Lemma loop_ok sigmas returns means slv todo : forall h items,
    Forall (fun tp => In (fst tp) (forecast_times LA sigmas)) todo ->
    (solve_loop LA slv (built LA sigmas returns means) h todo = (items, None) <->
     length items = length todo /\
     forall i tp, nth_error todo i = Some tp ->
       ~ entry_fails sigmas means slv (h ++ map snd (firstn i todo)) tp /\
       nth_error items i = Some (entry_of sigmas means slv (h ++ map snd (firstn i todo)) tp)).
  Proof.
    induction todo as [|[t p] todo IH]; intros h items HF.
    - simpl. split.
      + intros H; inversion H; subst. split; auto. intros [|i] tp; discriminate.
      + intros [H _]. destruct items; [auto|discriminate].
    - inversion HF as [|x l H1 H2]; subst. cbn [solve_loop].
      assert (Hshift : forall i, h ++ map snd (firstn (S i) ((t, p) :: todo)) = (h ++ [p]) ++ map snd (firstn i todo)).
      { intros i. cbn [firstn map snd]. rewrite <- app_assoc. auto. }
      assert (Hhead : h ++ map snd (firstn 0 ((t, p) :: todo)) = h) by (simpl; apply app_nil_r).
      destruct (slv h p) as [w|] eqn:Es.
      + rewrite result_at_eq by auto. destruct (combined LA sigmas means t w) as [r|] eqn:Ec; cbn [or_raise].
        * destruct (solve_loop LA slv (built LA sigmas returns means) (h ++ [p]) todo) as [is ex] eqn:El. cbn [fst snd].
          split.
          -- intros H. inversion H; subst. apply IH in El; auto. destruct El as [L1 L2]. split; [simpl; auto|].
             intros [|i] tp E.
             ++ inversion E; subst. rewrite Hhead. unfold entry_fails, entry_of. cbn [fst snd].
                rewrite Es. split; [intros (w' & Ew & Ew'); congruence|]. rewrite Ec. reflexivity.
             ++ rewrite Hshift. cbn [nth_error]. apply L2; auto.
          -- intros [L1 L2]. destruct items as [|it items]; [discriminate|]. simpl in L1.
             assert (E0 := L2 0 (t, p) eq_refl). rewrite Hhead in E0. destruct E0 as [_ E0]. unfold entry_of in E0. cbn [fst snd] in E0.
             rewrite Es, Ec in E0. inversion E0; subst.
             assert (Et : (is, ex) = (items, None)).
             { apply (IH (h ++ [p]) items) in H2 as H2'. rewrite El in H2'. apply H2'. split; [lia|].
               intros i tp E. specialize (L2 (S i) tp E). rewrite Hshift in L2. exact L2. }
             inversion Et; subst. auto.
        * split; [discriminate|]. intros [L1 L2]. destruct (L2 0 (t, p) eq_refl) as [Hf _]. rewrite Hhead in Hf.
          exfalso. apply Hf. exists w. auto.
      + destruct (solve_loop LA slv (built LA sigmas returns means) (h ++ [p]) todo) as [is ex] eqn:El. cbn [fst snd].
        split.
        * intros H. inversion H; subst. apply IH in El; auto. destruct El as [L1 L2]. split; [simpl; auto|].
          intros [|i] tp E.
          -- inversion E; subst. rewrite Hhead. unfold entry_fails, entry_of. cbn [fst snd].
             rewrite Es. split; [intros (w' & Ew & Ew'); congruence|]. reflexivity.
          -- rewrite Hshift. cbn [nth_error]. apply L2; auto.
        * intros [L1 L2]. destruct items as [|it items]; [discriminate|]. simpl in L1.
          assert (E0 := L2 0 (t, p) eq_refl). rewrite Hhead in E0. destruct E0 as [_ E0]. unfold entry_of in E0. cbn [fst snd] in E0.
          rewrite Es in E0. inversion E0; subst.
          assert (Et : (is, ex) = (items, None)).
          { apply (IH (h ++ [p]) items) in H2 as H2'. rewrite El in H2'. apply H2'. split; [lia|].
            intros i tp E. specialize (L2 (S i) tp E). rewrite Hshift in L2. exact L2. }
          inversion Et; subst. auto.
  Qed.

  (** Only LinAlgError can end the loop early; what was yielded before is a prefix. *)
  Lemma loop_exn sigmas returns means slv todo : forall h items e,
    Forall (fun tp => In (fst tp) (forecast_times LA sigmas)) todo ->
    solve_loop LA slv (built LA sigmas returns means) h todo = (items, Some e) -> e = LinAlgError.
  Proof.
    induction todo as [|[t p] todo IH]; intros h items e HF; [discriminate|]. inversion HF as [|x l H1 H2]; subst. cbn [solve_loop].
    destruct (slv h p) as [w|].
    - rewrite result_at_eq by auto. destruct (combined LA sigmas means t w); cbn [or_raise].
      + destruct (solve_loop LA slv _ (h ++ [p]) todo) as [is ex] eqn:El. cbn [fst snd]. intros H; inversion H; subst. eauto.
      + intros H; inversion H; auto.
    - destruct (solve_loop LA slv _ (h ++ [p]) todo) as [is ex] eqn:El. cbn [fst snd]. intros H; inversion H; subst. eauto.
  Qed.

  Lemma loop_app sigmas returns means slv t1 t2 : forall h items,
    solve_loop LA slv (built LA sigmas returns means) h (t1 ++ t2) = (items, None) ->
    exists i1 i2, items = i1 ++ i2 /\
      solve_loop LA slv (built LA sigmas returns means) h t1 = (i1, None) /\
      solve_loop LA slv (built LA sigmas returns means) (h ++ map snd t1) t2 = (i2, None).
  Proof.
    induction t1 as [|[t p] t1 IH]; intros h items H; cbn [app] in *.
    - exists [], items. rewrite app_nil_r. auto.
    - cbn [solve_loop] in *. destruct (slv h p) as [w|].
      + destruct (result_at LA _ t w) as [r|]; [|discriminate].
        destruct (solve_loop LA slv _ (h ++ [p]) (t1 ++ t2)) as [is ex] eqn:El. cbn [fst snd] in H. inversion H; subst.
        destruct (IH _ _ El) as (i1 & i2 & -> & E1 & E2). exists (Some r :: i1), i2. rewrite E1. cbn [fst snd].
        split; auto. split; auto. cbn [map snd]. rewrite <- app_assoc in E2. auto.
      + destruct (solve_loop LA slv _ (h ++ [p]) (t1 ++ t2)) as [is ex] eqn:El. cbn [fst snd] in H. inversion H; subst.
        destruct (IH _ _ El) as (i1 & i2 & -> & E1 & E2). exists (None :: i1), i2. rewrite E1. cbn [fst snd].
        split; auto. split; auto. cbn [map snd]. rewrite <- app_assoc in E2. auto.
  Qed.

  (** ** prepare *)
  Lemma eff_window_eq sigmas returns means window :
    eff_window LA (built LA sigmas returns means) window =
    let n := length (forecast_times LA sigmas) - 1 in
    match window with Some (S k) => Nat.min (S k) n | _ => n end.
  Proof.
    unfold eff_window, built. cbn [c_Ls_shifted]. unfold tab. cbn [o_idx].
    assert (E : length (tl (forecast_times LA sigmas)) = length (forecast_times LA sigmas) - 1)
      by (destruct (forecast_times LA sigmas); simpl; lia).
    rewrite E. destruct window as [[|k]|]; simpl; auto using Nat.min_id.
  Qed.
  Lemma scored_length sigmas : length (scored LA sigmas) = length (forecast_times LA sigmas) - 1.
  Proof. unfold scored. destruct (forecast_times LA sigmas); simpl; lia. Qed.
  Lemma scored_incl sigmas t : In t (scored LA sigmas) -> In t (forecast_times LA sigmas).
  Proof. unfold scored. destruct (forecast_times LA sigmas); simpl; auto. Qed.

  Lemma sub_all {A} (l : list A) : sub l 0 (length l) = l.
  Proof. unfold sub. simpl. apply firstn_all. Qed.

  Lemma prepare_empty sigmas returns means window :
    dicts sigmas -> length (forecast_times LA sigmas) <= 1 ->
    prepare LA (built LA sigmas returns means) window None = Raise IndexError.
  Proof.
    intros Hd Hl. unfold prepare. rewrite Lts_ok; auto.
    - cbn [bind times_of]. rewrite eff_window_eq.
      assert (Es : scored LA sigmas = []).
      { pose proof (scored_length sigmas). destruct (scored LA sigmas); auto. simpl in *; lia. }
      assert (Ew : (let n := length (forecast_times LA sigmas) - 1 in
         match window with Some (S k) => Nat.min (S k) n | _ => n end) = 0).
      { cbv zeta. replace (length (forecast_times LA sigmas) - 1) with 0 by lia. destruct window as [[|k]|]; auto. }
      rewrite Ew. unfold tab. cbn [o_idx]. rewrite Es. reflexivity.
    - intros t Ht. pose proof (scored_length sigmas). destruct (scored LA sigmas); simpl in *; [tauto|lia].
  Qed.

  Lemma o_idx_tab {C} keys idx (f : string -> Z -> C) : o_idx (tab keys idx f) = idx.
  Proof. reflexivity. Qed.

  Lemma prepare_all sigmas returns means window :
    dicts sigmas -> increasing (forecast_times LA sigmas) -> returns_known LA sigmas returns ->
    2 <= length (forecast_times LA sigmas) ->
    let w := eff_window LA (built LA sigmas returns means) window in
    prepare LA (built LA sigmas returns means) window None =
    mapM (posed LA sigmas means returns w) (seq (w - 1) (length (scored LA sigmas) + 1 - w)).
  Proof.
    intros Hd Hi Hr Hl w. unfold prepare. rewrite Lts_ok; auto. cbn [bind times_of]. fold w.
    assert (Hw : 1 <= w).
    { unfold w. rewrite eff_window_eq. cbv zeta. destruct window as [[|k]|]; lia. }
    assert (Hinc : increasing (scored LA sigmas)).
    { unfold scored. destruct (forecast_times LA sigmas) eqn:E; simpl; auto. eapply increasing_tail; eauto. }
    rewrite o_idx_tab.
    transitivity (problems_at LA (built LA sigmas returns means) w
      (tab (map fst sigmas) (scored LA sigmas) (score LA sigmas means returns)) (sub (scored LA sigmas) 0 (length (scored LA sigmas)))).
    { rewrite sub_all. reflexivity. }
    rewrite problems_block; auto.
  Qed.

  Lemma pyslice_nat {A} (l : list A) a m : a + m <= length l ->
    pyslice l (Z.of_nat a) (Z.of_nat a + Z.of_nat m) = sub l a m.
  Proof.
    intros H. unfold pyslice, pyclamp, pynorm, sub.
    destruct (Z.ltb_spec (Z.of_nat a) 0); [lia|]. destruct (Z.ltb_spec (Z.of_nat a + Z.of_nat m) 0); [lia|].
    replace (Z.to_nat (Z.max 0 (Z.min (Z.of_nat (length l)) (Z.of_nat a + Z.of_nat m)) -
                       Z.max 0 (Z.min (Z.of_nat (length l)) (Z.of_nat a)))) with m by lia.
    replace (Z.to_nat (Z.max 0 (Z.min (Z.of_nat (length l)) (Z.of_nat a)))) with a by lia. auto.
  Qed.
  Lemma pyslice_any {A} (l : list A) a m : a <= length l ->
    pyslice l (Z.of_nat a) (Z.of_nat a + Z.of_nat m) = sub l a m.
  Proof.
    intros H. unfold pyslice, pyclamp, pynorm, sub.
    destruct (Z.ltb_spec (Z.of_nat a) 0); [lia|]. destruct (Z.ltb_spec (Z.of_nat a + Z.of_nat m) 0); [lia|].
    replace (Z.to_nat (Z.max 0 (Z.min (Z.of_nat (length l)) (Z.of_nat a)))) with a by lia.
    destruct (le_lt_dec (a + m) (length l)).
    - replace (Z.to_nat (Z.max 0 (Z.min (Z.of_nat (length l)) (Z.of_nat a + Z.of_nat m)) -
                       Z.max 0 (Z.min (Z.of_nat (length l)) (Z.of_nat a)))) with m by lia. auto.
    - rewrite !firstn_all2; auto; rewrite skipn_length; lia.
  Qed.

  Lemma times_of_ok avail w ts z m : m = length ts -> 1 <= m -> NoDup avail -> z + m <= length avail -> ts = sub avail z m ->
    1 <= w <= length avail ->
    times_of avail w (Some ts) = Ok (if w - 1 <=? z then sub avail (z + 1 - w) (m + w - 1) else ts).
  Proof.
    intros Hm H1 Hn Hz Ht Hw. unfold times_of.
    assert (E0 : pyget ts 0 = Ok (nth z avail 0%Z)).
    { change 0%Z with (Z.of_nat 0). rewrite (pyget_nat ts 0 0%Z) by lia. rewrite Ht, nth_sub by lia. f_equal. f_equal. lia. }
    rewrite E0. cbn [bind]. rewrite pos_of_nth by (auto; lia). cbn [or_raise bind].
    rewrite <- Hm, pyslice_nat by lia. rewrite <- Ht. unfold eq_times. destruct (list_eq_dec Z.eq_dec ts ts); [|tauto].
    f_equal. destruct (Nat.leb_spec (w - 1) z).
    - replace (Z.of_nat z - Z.of_nat w + 1)%Z with (Z.of_nat (z + 1 - w)) by lia.
      replace (Z.of_nat z) with (Z.of_nat (z + 1 - w) + Z.of_nat (w - 1))%Z by lia.
      rewrite pyslice_nat by lia. rewrite Ht. unfold sub.
      replace (skipn z avail) with (skipn (w - 1) (skipn (z + 1 - w) avail)) by (rewrite skipn_skipn'; f_equal; lia).
      set (l := skipn (z + 1 - w) avail).
      replace (m + w - 1) with ((w - 1) + m) by lia.
      rewrite <- (firstn_skipn (w - 1) l) at 3. rewrite firstn_app, firstn_firstn.
      assert (Ll : w - 1 <= length l) by (unfold l; rewrite skipn_length; lia).
      rewrite firstn_length, Nat.min_r by lia. rewrite (Nat.min_l (w - 1)) by lia. f_equal. f_equal. lia.
    - unfold pyslice, pyclamp, pynorm.
      destruct (Z.ltb_spec (Z.of_nat z - Z.of_nat w + 1) 0); [|lia]. destruct (Z.ltb_spec (Z.of_nat z) 0); [lia|].
      replace (Z.to_nat (Z.max 0 (Z.min (Z.of_nat (length avail)) (Z.of_nat z)) -
        Z.max 0 (Z.min (Z.of_nat (length avail)) (Z.of_nat (length avail) + (Z.of_nat z - Z.of_nat w + 1))))) with 0 by lia.
      reflexivity.
  Qed.

  Lemma prepare_some sigmas returns means window ts z :
    dicts sigmas -> increasing (forecast_times LA sigmas) -> returns_known LA sigmas returns ->
    ts <> [] -> z + length ts <= length (scored LA sigmas) -> ts = sub (scored LA sigmas) z (length ts) ->
    let w := eff_window LA (built LA sigmas returns means) window in
    prepare LA (built LA sigmas returns means) window (Some ts) =
    mapM (posed LA sigmas means returns w)
      (if w - 1 <=? z then seq z (length ts) else seq (z + w - 1) (length ts + 1 - w)).
  Proof.
    intros Hd Hi Hr Hne Hz Hts w. unfold prepare. rewrite Lts_ok; auto. cbn [bind]. fold w.
    assert (Hm : 1 <= length ts) by (destruct ts; simpl; [tauto|lia]).
    pose proof (scored_length sigmas) as Hsl.
    assert (Hw : 1 <= w <= length (scored LA sigmas)).
    { unfold w. rewrite eff_window_eq. cbv zeta. destruct window as [[|k]|]; lia. }
    assert (Hinc : increasing (scored LA sigmas)).
    { unfold scored. destruct (forecast_times LA sigmas) eqn:E; simpl; auto. eapply increasing_tail; eauto. }
    rewrite o_idx_tab.
    rewrite (times_of_ok _ w ts z (length ts)); auto using scored_nodup. cbn [bind].
    destruct (Nat.leb_spec (w - 1) z).
    - rewrite problems_block by (auto; lia). f_equal. f_equal; lia.
    - rewrite Hts at 1. rewrite problems_block by (auto; lia). reflexivity.
  Qed.

  Lemma prepare_times_empty sigmas returns means window :
    dicts sigmas -> returns_known LA sigmas returns ->
    prepare LA (built LA sigmas returns means) window (Some []) = Raise IndexError.
  Proof. intros. unfold prepare. rewrite Lts_ok; auto. Qed.
  Lemma prepare_times_unknown sigmas returns means window t ts :
    dicts sigmas -> returns_known LA sigmas returns -> ~ In t (scored LA sigmas) ->
    prepare LA (built LA sigmas returns means) window (Some (t :: ts)) = Raise KeyError.
  Proof.
    intros. unfold prepare. rewrite Lts_ok; auto. cbn [bind]. unfold times_of, tab. cbn [o_idx].
    change 0%Z with (Z.of_nat 0). rewrite (pyget_nat (t :: ts) 0 0%Z) by (simpl; lia). cbn [bind nth].
    apply pos_of_none in H1. rewrite H1. auto.
  Qed.
  Lemma prepare_times_gap sigmas returns means window t ts :
    dicts sigmas -> returns_known LA sigmas returns -> In t (scored LA sigmas) ->
    (forall z, t :: ts <> sub (scored LA sigmas) z (length (t :: ts))) ->
    prepare LA (built LA sigmas returns means) window (Some (t :: ts)) = Raise AssertionError.
  Proof.
    intros Hd Hr Ht Hg. unfold prepare. rewrite Lts_ok; auto. cbn [bind]. unfold times_of, tab. cbn [o_idx].
    change 0%Z with (Z.of_nat 0) at 1. rewrite (pyget_nat (t :: ts) 0 0%Z) by (simpl; lia). cbn [bind nth].
    destruct (pos_of (scored LA sigmas) t) as [z|] eqn:E; [|apply pos_of_none in E; tauto]. cbn [or_raise bind].
    destruct (pos_of_some _ _ _ 0%Z E) as [Hz _].
    rewrite pyslice_any by lia. unfold eq_times. destruct (list_eq_dec Z.eq_dec _ (t :: ts)) as [e|e]; auto.
    exfalso. apply (Hg z). auto.
  Qed.
End Run.
