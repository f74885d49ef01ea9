(** * The demo: gaps in the prices, and the returns of a complete table of prices (C127, C128). *)
From Coq Require Import String Reals Lra List Bool ZArith Arith Lia.
From Verif Require Import Num Py ListFacts Spec SpecEwma SpecDemo Ewma EwmaTot Combination FromEwmas FromRun Demo DemoRun DemoUnits.
Import ListNotations.
Local Open Scope R_scope.

Lemma pct_vals pad (f : frame (N := XR) time) : fvals (pct_change pad f) = pct_of (if pad then ffill (fvals f) else fvals f).
Proof. reflexivity. Qed.

(** ffill, entry by entry. *)
Lemma ffill_entry_from n : forall (rows : list (list xr)) (a : list xr), length a = n -> Forall (fun r => length r = n) rows ->
  forall k j, (k < length rows)%nat -> (j < n)%nat ->
  nth j (nth k (ffill_from (N := XR) a rows) []) NaN =
  if xisnan (nth j (nth k rows []) NaN) then nth j (nth k (a :: ffill_from (N := XR) a rows) []) NaN else nth j (nth k rows []) NaN.
Proof.
  induction rows as [|r rows IH]; intros a La F k j Hk Hj; [simpl in Hk; lia|]. pose proof (Forall_inv F) as Lr. pose proof (Forall_inv_tail F) as F'. cbv beta in Lr.
  cbn [ffill_from]. set (r' := map2 (fun p x : xr => if xisnan x then p else x) a r : list xr). change (@map2 num num num _ a r) with r'. assert (Lr' : length r' = n) by (unfold r'; rewrite map2_length; lia).
  destruct k as [|k].
  - cbn [nth]. unfold r'. rewrite (map2_nth _ _ _ _ NaN NaN NaN) by lia. reflexivity.
  - cbn [nth]. simpl in Hk. rewrite (IH r' Lr' F' k j ltac:(lia) Hj). reflexivity.
Qed.
Lemma ffill_width n (rows : list (list xr)) : Forall (fun r => length r = n) rows -> Forall (fun r => length r = n) (ffill (N := XR) rows).
Proof.
  destruct rows as [|a rows]; intros F; [constructor|]. constructor; [exact (Forall_inv F)|]. pose proof (Forall_inv F) as La. pose proof (Forall_inv_tail F) as F'. cbv beta in La. clear F.
  revert a La. induction rows as [|r rows IH]; intros a La; cbn [ffill_from]; constructor.
  - rewrite map2_length. pose proof (Forall_inv F') as L. cbv beta in L. apply Nat.min_case; auto.
  - apply IH; [exact (Forall_inv_tail F')|]. rewrite map2_length. pose proof (Forall_inv F') as L. cbv beta in L. apply Nat.min_case; auto.
Qed.
Lemma rows_ext n (a b : list (list xr)) : length a = length b -> Forall (fun r => length r = n) a -> Forall (fun r => length r = n) b ->
  (forall k j, (k < length a)%nat -> (j < n)%nat -> nth j (nth k a []) NaN = nth j (nth k b []) NaN) -> a = b.
Proof.
  intros L Fa Fb H. apply nth_ext with (d := []) (d' := []); auto. intros k Hk.
  assert (La : length (nth k a []) = n) by (rewrite Forall_forall in Fa; apply Fa, nth_In; auto).
  assert (Lb : length (nth k b []) = n) by (rewrite Forall_forall in Fb; apply Fb, nth_In; lia).
  apply nth_ext with (d := NaN) (d' := NaN); [lia|]. intros j Hj. apply H; lia.
Qed.
Lemma if_ext (b : bool) (x x' y y' : xr) : x = x' -> y = y' -> (if b then x else y) = (if b then x' else y').
Proof. intros -> ->. auto. Qed.
Lemma ffill_known (f : frame (N := XR) time) : wf_frame f -> forall k j, (k < length (findex f))%nat -> (j < length (fcols f))%nat ->
  nth j (nth k (ffill (N := XR) (fvals f)) []) NaN = last_known f k j.
Proof.
  intros [F1 F2] k j Hk Hj. rewrite F1 in Hk. assert (He : forall k, entry f k j = nth j (nth k (fvals f) []) NaN) by reflexivity.
  destruct (fvals f) as [|a rows] eqn:E; [simpl in Hk; lia|]. change (length (a :: rows)) with (S (length rows)) in Hk. induction k as [|k IH]; [symmetry; apply (He 0%nat)|].
  etransitivity; [exact (ffill_entry_from (length (fcols f)) rows a (Forall_inv F2) (Forall_inv_tail F2) k j (proj2 (Nat.succ_lt_mono _ _) Hk) Hj)|].
  cbn [last_known]. rewrite (He (S k)). exact (if_ext _ _ _ _ _ (IH (Nat.lt_succ_l _ _ Hk)) eq_refl).
Qed.
Lemma known_idem (f g : frame (N := XR) time) : gaps_closed f g -> forall k j, (k < length (findex f))%nat -> (j < length (fcols f))%nat -> last_known g k j = last_known f k j.
Proof.
  intros (_ & _ & _ & H) k j Hk Hj. induction k as [|k IH]; [simpl; apply (H 0%nat); auto|]. simpl. rewrite (H (S k) j Hk Hj). 
  rewrite IH by lia. simpl. destruct (xisnan (entry f (S k) j)) eqn:E.
  - destruct (xisnan (last_known f k j)); auto.
  - rewrite E. auto.
Qed.
Lemma pct_gaps (f g : frame (N := XR) time) : wf_frame f -> gaps_closed f g -> pct_change true f = pct_change true g.
Proof.
  intros Hf Hg. pose proof Hg as (E1 & E2 & Hgw & H).
  assert (E : ffill (N := XR) (fvals f) = ffill (N := XR) (fvals g)).
  { pose proof Hf as [F1 F2]. pose proof Hgw as [G1 G2]. rewrite E2 in G2. apply (rows_ext (length (fcols f))); [rewrite !ffill_length; congruence|apply ffill_width, F2|apply ffill_width, G2|].
    intros k j Hk Hj. rewrite ffill_length in Hk. rewrite ffill_known by (auto; congruence). rewrite ffill_known; [|auto|rewrite E1, F1; exact Hk|rewrite E2; exact Hj].
    symmetry. apply known_idem; auto. rewrite F1. exact Hk. }
  unfold pct_change. rewrite E1, E2, E. reflexivity.
Qed.

Lemma ffill_id (f : frame (N := XR) time) P : wf_frame f -> prices_are f P -> ffill (N := XR) (fvals f) = fvals f.
Proof.
  intros Hf HP. pose proof Hf as [F1 F2]. apply (rows_ext (length (fcols f))); [apply ffill_length|apply ffill_width, F2|exact F2|].
  intros k j Hk Hj. rewrite ffill_length, <- F1 in Hk. rewrite ffill_known by auto. destruct (HP k j Hk Hj) as [E _]. destruct k; [reflexivity|].
  cbn [last_known]. rewrite E. cbn [xisnan]. exact (eq_sym E).
Qed.
Lemma col_pos_nth cols : NoDup cols -> forall q c, nth_error cols q = Some c -> col_pos cols c = Some q.
Proof.
  induction 1 as [|d cols Hd Hn IH]; intros [|q] c H; try discriminate; simpl in *.
  - injection H as ->. rewrite String.eqb_refl. auto.
  - rewrite (IH q c H). destruct (String.eqb_spec d c); auto. subst. exfalso. apply Hd. eapply nth_error_In; eauto.
Qed.
Lemma select_ps cols q names : NoDup cols -> columns_of names cols q ->
  mapM (fun c => or_raise (col_pos cols c) KeyError) names = Ok (map q (seq 0 (length names))).
Proof.
  intros Hn. revert q. induction names as [|c names IH]; intros q H; auto. cbn [mapM length seq map].
  rewrite (col_pos_nth cols Hn (q 0%nat) c) by (apply (H 0%nat); simpl; lia). cbn [or_raise bind].
  rewrite (IH (fun i => q (S i))) by (intros i Hi; apply (H (S i)); simpl; lia). cbn [bind]. rewrite <- seq_shift, map_map. auto.
Qed.
Lemma filter_all {A} (p : A -> bool) l : (forall a, In a l -> p a = true) -> filter p l = l.
Proof. induction l as [|a l IH]; simpl; intros H; auto. rewrite (H a) by auto. f_equal. auto. Qed.
Lemma increasing_tl l : increasing l -> increasing (tl l).
Proof. destruct l as [|a [|b l]]; simpl; tauto. Qed.

Lemma pct_finite (d0 : list (list xr)) (idx : list Z) n P : length idx = length d0 -> Forall (fun r => length r = n) d0 -> (0 < n)%nat ->
  (forall k j, (k < length d0)%nat -> (j < n)%nat -> nth j (nth k d0 []) NaN = Fin (P j k) /\ 0 < P j k) ->
  let kept := filter (fun p : Z * list xr => negb (all_nan (N := XR) (snd p))) (combine idx (pct_of d0)) in
  map fst kept = tl idx /\ length (map snd kept) = length (tl idx) /\
  forall k j, (k < length (tl idx))%nat -> (j < n)%nat -> nth j (nth k (map snd kept) []) NaN = Fin (relative P j k).
Proof.
  intros F1 F2 Hpos HP. destruct d0 as [|r rows], idx as [|t ts]; try discriminate.
  - cbn. split; auto. split; auto. intros k j Hk. lia.
  - cbn [pct_of tl combine]. set (d := map2 (map2 (fun prev cur => xsub (xdiv cur prev) (Fin 1))) (r :: rows) rows).
    assert (Ld : length d = length rows) by (unfold d; rewrite map2_length; cbn [length]; lia).
    assert (Lt : length ts = length rows) by (simpl in F1; lia).
    assert (He : forall k j, (k < length d)%nat -> (j < n)%nat -> nth j (nth k d []) NaN = Fin (relative P j k)).
    { intros k j Hk Hj. unfold d. rewrite (map2_nth _ _ _ _ [] [] []) by (simpl; lia).
      assert (W : forall m, (m < S (length rows))%nat -> length (nth m (r :: rows) []) = n /\ nth j (nth m (r :: rows) []) NaN = Fin (P j m) /\ 0 < P j m).
      { intros m Hm. split; [rewrite Forall_forall in F2; apply F2, nth_In; simpl; lia|]. apply HP; auto. }
      destruct (W k ltac:(lia)) as (L1 & V1 & P1). destruct (W (S k) ltac:(lia)) as (L2 & V2 & P2). cbn [nth] in L2, V2.
      rewrite (map2_nth _ _ _ _ NaN NaN NaN) by lia. rewrite V1, V2. cbn [xdiv]. destruct (Req_EM_T (P j k) 0); [lra|]. unfold xsub; cbn. f_equal. }
    cbn [filter snd]. assert (A : all_nan (N := XR) (map (fun _ : xr => NaN) r) = true) by (clear; induction r; auto).
    rewrite A. cbn [negb]. rewrite filter_all.
    + assert (E2 : map snd (combine ts d) = d) by (clear - Ld Lt; revert ts Lt; rewrite <- Ld; generalize d; induction d0 as [|a d0 IH]; intros [|t ts] L; try discriminate; auto; simpl; f_equal; apply IH; auto).
      split; [apply map_fst_combine; rewrite Ld, Lt; apply Nat.le_refl|]. rewrite E2. split; [rewrite Ld; auto|]. intros k j Hk Hj. apply He; auto. rewrite Ld, <- Lt. exact Hk.
    + intros [t0 row] Hin. apply in_combine_r in Hin. destruct (In_nth _ _ [] Hin) as (k & Hk & Ek). pose proof (He k 0%nat Hk Hpos) as E0. rewrite Ek in E0. cbn [snd].
      destruct row as [|a row]; [discriminate|]. simpl in E0. subst a. reflexivity.
Qed.

Lemma returns_of_prices pad names (f : frame (N := XR) time) P q : wf_frame f -> increasing (findex f) -> prices_are f P ->
  NoDup (fcols f) -> columns_of names (fcols f) q -> names <> [] ->
  exists g, demo_returns pad names f = Ok g /\ findex g = tl (findex f) /\ fcols g = names /\ valid_returns g /\
    returns_are false g (fun i => relative P (q i)).
Proof.
  intros Hf Hi HP Hn Hq Hne. pose proof Hf as [F1 F2].
  assert (Ev : fvals (pct_change pad f) = pct_of (fvals f)) by (rewrite pct_vals; destruct pad; [rewrite (ffill_id f P Hf HP)|]; reflexivity).
  assert (Hpos : (0 < length (fcols f))%nat).
  { destruct names as [|c names]; [congruence|]. pose proof (Hq 0%nat ltac:(simpl; lia)) as H. destruct (fcols f); [destruct (q 0%nat); discriminate|simpl; lia]. }
  (* the rows of the returns *)
  set (n := length (fcols f)) in *.
  assert (Rows : exists rows, fdropna_all (pct_change pad f) = mkFrame (tl (findex f)) (fcols f) rows /\ length rows = length (tl (findex f)) /\
            forall k j, (k < length rows)%nat -> (j < n)%nat -> nth j (nth k rows []) NaN = Fin (relative P j k)).
  { destruct (pct_finite (fvals f) (findex f) n P F1 F2 Hpos) as (K1 & K2 & K3).
    { intros k j Hk Hj. apply HP; auto. rewrite F1. exact Hk. }
    eexists. split; [|split; [exact K2|]].
    - unfold fdropna_all. rewrite Ev. cbn [findex fcols pct_change]. f_equal. exact K1.
    - intros k j Hk Hj. apply K3; auto. rewrite <- K2. exact Hk. }
  destruct Rows as (rows & Ef & Lr & He).
  unfold demo_returns, select. rewrite Ef. cbn [fcols findex fvals]. rewrite (select_ps _ q names Hn Hq). cbn [bind]. eexists. split; [reflexivity|]. cbn [findex fcols]. split; auto. split; auto. split.
  - split; [|split; [cbn; apply increasing_tl; auto|exact Hne]]. split; cbn [findex fvals fcols]; [rewrite map_length; congruence|].
    apply Forall_map, Forall_forall. intros row _. rewrite !map_length, seq_length. auto.
  - intros k j Hk Hj. cbn [findex fcols] in Hk, Hj. left. unfold entry. cbn [fvals]. rewrite <- Lr in Hk.
    rewrite (nth_indep _ [] ((fun r => map (fun p => nth p r NaN) (map q (seq 0 (length names)))) [])) by (rewrite map_length; auto). 
    rewrite (map_nth (fun r => map (fun p => nth p r NaN) (map q (seq 0 (length names))))). rewrite map_map.
    rewrite (nth_indep _ NaN ((fun i => nth (q i) (nth k rows []) NaN) 0%nat)) by (rewrite map_length, seq_length; auto).
    rewrite (map_nth (fun i => nth (q i) (nth k rows []) NaN)), seq_nth by auto. apply He; auto.
    pose proof (Hq j Hj) as H. assert (nth_error (fcols f) (q j) <> None) by (rewrite H; apply nth_error_Some; auto). apply nth_error_Some in H0. auto.
Qed.
