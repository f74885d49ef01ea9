(** * The ewma pipeline without its error plumbing, and the proof that it is the model. *)
From Coq Require Import String List Bool ZArith Arith Lia.
From Verif Require Import Num Py ListFacts Ewma.
Import ListNotations.

Section Tot.
  Context {N : Num}.

  (** States of the recursion, one per row of data. *)
  Definition states {A V} (vmap2 : (num -> num -> num) -> V -> V -> V) beta (fct : A -> V) mp clip
             (y : list A) : list V :=
    match y with
    | [] => []
    | y0 :: rest => fct y0 :: general_loop vmap2 beta fct mp clip 1 (fct y0) rest
    end.

  Lemma general_loop_length {A V} (vmap2 : (num -> num -> num) -> V -> V -> V) beta (fct : A -> V) mp clip n e rows :
    length (general_loop vmap2 beta fct mp clip n e rows) = length rows.
  Proof. revert n e; induction rows; simpl; intros; auto. Qed.

  Lemma states_length {A V} (vmap2 : (num -> num -> num) -> V -> V -> V) beta (fct : A -> V) mp clip y :
    length (states vmap2 beta fct mp clip y) = length y.
  Proof. destruct y; simpl; auto. rewrite general_loop_length; auto. Qed.

  Lemma mask_from_length {V} (vmap : (num -> num) -> V -> V) mp k l :
    length (mask_from vmap mp k l) = length l.
  Proof. revert k; induction l; simpl; intros; auto. Qed.

  Definition gen_tot {A V} (vmap : (num -> num) -> V -> V) (vmap2 : (num -> num -> num) -> V -> V -> V)
             beta (fct : A -> V) mp clip (y : list A) (times : list time) : list (time * V) :=
    combine times (mask_from vmap mp 0 (states vmap2 beta fct mp clip y)).

  Definition isnil {A} (l : list A) : bool := match l with [] => true | _ => false end.

  Lemma general_eq {A V} (vmap : (num -> num) -> V -> V) (vmap2 : (num -> num -> num) -> V -> V -> V)
        y times h a (fct : A -> V) mp clip b :
    beta_of h a = Ok b ->
    general vmap vmap2 y times h a fct mp clip =
    if isnil y then Raise IndexError else Ok (gen_tot vmap vmap2 b fct mp clip y times).
  Proof. intros Hb; unfold general; rewrite Hb; simpl. destruct y; reflexivity. Qed.

  Definition mean_tot b mp clip (f : frame time) : list (time * vec) :=
    filter (fun p => negb (all_nan (snd p)))
      (gen_tot (@map num num) map2 b (fun x => x) mp clip (fvals f) (findex f)).

  Definition toframe (cols : list string) (g : list (time * vec)) : frame time :=
    mkFrame (map fst g) cols (map snd g).

  Definition meanf_tot b mp clip (f : frame time) : frame time := toframe (fcols f) (mean_tot b mp clip f).

  Definition sqclip (clip : option num) : option num :=
    match truthy clip with Some c => Some (nmul c c) | None => None end.

  Definition vola_tot b mp clip (f : frame time) : frame time :=
    fmap nsqrt (meanf_tot b mp (sqclip clip) (fmap (fun x => nmul x x) f)).

  Definition center_tot b (m : bool) (f : frame time) : frame time * frame time :=
    if m then (fdropna_all (falign nsub f (meanf_tot b 0 None f)), meanf_tot b 0 None f)
    else (f, fmap (fun x => nmul n0 x) f).

  Definition cov_tot b mp (adj : frame time) : list (time * frame string) :=
    map (fun p => (fst p, mkFrame (fcols adj) (fcols adj) (snd p)))
      (filter (fun p => negb (all_nan_mat (snd p)))
         (gen_tot mmap mmap2 b (fun x => outer x x) mp None (fvals adj) (findex adj))).

  Definition loc0 (f : frame time) (t : time) : vec :=
    match floc f t with Some r => r | None => [] end.

  Definition prep (P : params) (f : frame time) : frame time := if nan_to_num P then ffillna0 f else f.

  Definition item (P : params) (returns returns_mean vola adj_mean : frame time)
             (p : time * frame string) : IEWMA :=
    let t := fst p in
    mkIEWMA t
      (if use_mean P then scale_mean (loc0 vola t) (loc0 returns_mean t) (loc0 adj_mean t)
       else map (fun _ => n0) (fcols returns))
      (scale_cov (loc0 vola t) (snd p)) (loc0 vola t).

  Definition ret_tot b1 P f := fst (center_tot b1 (use_mean P) (prep P f)).
  Definition retmean_tot b1 P f := snd (center_tot b1 (use_mean P) (prep P f)).
  Definition volaf_tot b1 bv P f :=
    vola_tot bv (min_periods_vola P) (p_clip_at P) (ret_tot b1 P f).
  Definition adj0_tot b1 bv P f := adjusted P (ret_tot b1 P f) (volaf_tot b1 bv P f).
  Definition adj_tot b1 bv b2 P f := fst (center_tot b2 (use_mean P) (adj0_tot b1 bv P f)).
  Definition adjmean_tot b1 bv b2 P f := snd (center_tot b2 (use_mean P) (adj0_tot b1 bv P f)).

  Definition it_tot b1 bv b2 bc P f : list IEWMA :=
    map (item P (ret_tot b1 P f) (retmean_tot b1 P f) (volaf_tot b1 bv P f) (adjmean_tot b1 bv b2 P f))
        (cov_tot bc (min_periods_cov P) (adj_tot b1 bv b2 P f)).

  (** ** Facts about frames *)

  Definition good (f : frame time) : Prop := length (findex f) = length (fvals f) /\ NoDup (findex f).

  Lemma good_fmap g f : good f -> good (fmap g f).
  Proof. unfold good, fmap; simpl; rewrite map_length; auto. Qed.

  Lemma good_falign op a b : good a -> good (falign op a b).
  Proof. unfold good, falign; simpl; rewrite map2_length. intros [H1 H2]; split; auto. rewrite H1, Nat.min_id; auto. Qed.

  Lemma good_dropna (f : frame time) : good f -> good (fdropna_all f).
  Proof.
    unfold good, fdropna_all; simpl; intros [H1 H2]; rewrite !map_length; split; auto.
    apply NoDup_map_fst_filter. rewrite map_fst_combine; auto; lia.
  Qed.

  Lemma good_toframe cols g : NoDup (map fst g) -> good (toframe cols g).
  Proof. unfold good, toframe; simpl; rewrite !map_length; auto. Qed.

  Lemma gen_tot_fst {A V} (vmap : (num -> num) -> V -> V) (vmap2 : (num -> num -> num) -> V -> V -> V)
        beta (fct : A -> V) mp clip y times :
    length times = length y -> map fst (gen_tot vmap vmap2 beta fct mp clip y times) = times.
  Proof. intros; apply map_fst_combine. rewrite mask_from_length, states_length; lia. Qed.

  Lemma gen_tot_length {A V} (vmap : (num -> num) -> V -> V) (vmap2 : (num -> num -> num) -> V -> V -> V)
        beta (fct : A -> V) mp clip y times :
    length times = length y -> length (gen_tot vmap vmap2 beta fct mp clip y times) = length y.
  Proof.
    intros; unfold gen_tot; rewrite combine_length, mask_from_length, states_length; lia.
  Qed.

  Lemma mean_tot_nodup b mp clip f : good f -> NoDup (map fst (mean_tot b mp clip f)).
  Proof.
    intros [H1 H2]; unfold mean_tot. apply NoDup_map_fst_filter. rewrite gen_tot_fst; auto.
  Qed.

  Lemma good_meanf b mp clip f : good f -> good (meanf_tot b mp clip f).
  Proof. intros; apply good_toframe, mean_tot_nodup; auto. Qed.

  Lemma good_vola b mp clip f : good f -> good (vola_tot b mp clip f).
  Proof. intros; apply good_fmap, good_meanf, good_fmap; auto. Qed.

  Lemma good_center b m f : good f -> good (fst (center_tot b m f)).
  Proof. destruct m; simpl; auto; intros; apply good_dropna, good_falign; auto. Qed.

  Lemma good_clip f c : good f -> good (clip f c).
  Proof. unfold clip; destruct (truthy c); intros; apply good_dropna; auto; apply good_fmap; auto. Qed.

  Lemma good_adjusted P r v : good r -> good (adjusted P r v).
  Proof. intros; apply good_fmap, good_clip, good_falign; auto. Qed.

  Lemma good_prep P f : good f -> good (prep P f).
  Proof. unfold prep; destruct (nan_to_num P); auto; intros; apply good_fmap; auto. Qed.

  Lemma good_ret b1 P f : good f -> good (ret_tot b1 P f).
  Proof. intros; apply good_center, good_prep; auto. Qed.

  Lemma good_adj0 b1 bv P f : good f -> good (adj0_tot b1 bv P f).
  Proof. intros; apply good_adjusted, good_ret; auto. Qed.

  Lemma good_adj b1 bv b2 P f : good f -> good (adj_tot b1 bv b2 P f).
  Proof. intros; apply good_center, good_adj0; auto. Qed.

  Lemma fcols_center b m f : fcols (fst (center_tot b m f)) = fcols f.
  Proof. destruct m; reflexivity. Qed.

  (** ** The pieces of the model in terms of the total functions *)

  Lemma ewma_mean_eq f h mp clip b :
    good f -> beta_of h None = Ok b ->
    ewma_mean f h mp clip = if isnil (fvals f) then Raise IndexError else Ok (mean_tot b mp clip f).
  Proof.
    intros Hf Hb; unfold ewma_mean. erewrite general_eq by eauto.
    destruct (isnil (fvals f)); reflexivity.
  Qed.

  Lemma generator2frame_eq cols g : NoDup (map fst g) -> generator2frame cols g = toframe cols g.
  Proof. intros H; unfold generator2frame, toframe. rewrite dict_of_nodup; auto. Qed.

  Lemma isnil_map {A B} (g : A -> B) l : isnil (map g l) = isnil l.
  Proof. destruct l; auto. Qed.

  Lemma volatility_eq f h mp clip b :
    good f -> beta_of h None = Ok b ->
    volatility f h mp clip = if isnil (fvals f) then Raise IndexError else Ok (vola_tot b mp clip f).
  Proof.
    intros Hf Hb; unfold volatility, variance. fold (sqclip clip).
    erewrite ewma_mean_eq by (eauto using good_fmap).
    simpl fvals. rewrite isnil_map. destruct (isnil (fvals f)); simpl; auto.
    rewrite generator2frame_eq by (apply mean_tot_nodup, good_fmap; auto). reflexivity.
  Qed.

  Lemma center_eq f h m b :
    good f -> (m = true -> beta_of h None = Ok b) ->
    center f h 0 m = if m && isnil (fvals f) then Raise IndexError else Ok (center_tot b m f).
  Proof.
    intros Hf Hb; unfold center, center_tot. destruct m; simpl; auto.
    erewrite ewma_mean_eq by eauto.
    destruct (isnil (fvals f)); simpl; auto.
    rewrite generator2frame_eq by (apply mean_tot_nodup; auto). reflexivity.
  Qed.

  Lemma ewma_cov_eq f h mp b :
    beta_of h None = Ok b ->
    ewma_cov f h mp = if isnil (fvals f) then Raise IndexError else Ok (cov_tot b mp f).
  Proof.
    intros Hb; unfold ewma_cov. erewrite general_eq by eauto. destruct (isnil (fvals f)); reflexivity.
  Qed.

  (** Emptiness propagates through the stages. *)
  Lemma dropna_nil (f : frame time) : fvals f = [] -> fvals (fdropna_all f) = [].
  Proof. intros H; unfold fdropna_all; simpl. rewrite H, combine_nil. reflexivity. Qed.
  Lemma falign_nil op a b : fvals a = [] -> fvals (falign op a b) = [].
  Proof. intros H; unfold falign; simpl. rewrite H. destruct (findex a); reflexivity. Qed.
  Lemma center_nil b m f : fvals f = [] -> fvals (fst (center_tot b m f)) = [].
  Proof. destruct m; cbn [center_tot fst]; auto. intros; apply dropna_nil, falign_nil; auto. Qed.
  Lemma clip_nil f c : fvals f = [] -> fvals (clip f c) = [].
  Proof. unfold clip; destruct (truthy c); intros; apply dropna_nil; simpl; auto. rewrite H; auto. Qed.
  Lemma adjusted_nil P r v : fvals r = [] -> fvals (adjusted P r v) = [].
  Proof. intros; unfold adjusted, ffillna0, fmap; simpl. rewrite clip_nil; auto. apply falign_nil; auto. Qed.

  Lemma isnil_true {A} (l : list A) : isnil l = true <-> l = [].
  Proof. destruct l; simpl; split; congruence. Qed.

  (** ** Label look-ups *)
  Lemma row_at_In idx rows t r : row_at idx rows t = Some r -> In (t, r) (combine idx rows).
  Proof.
    revert rows; induction idx as [|i idx IH]; intros [|r0 rows]; simpl; try discriminate.
    destruct (Z.eqb_spec t i); intros H; [inversion H; subst; auto | right; auto].
  Qed.

  Lemma row_at_nodup idx rows t r :
    NoDup idx -> In (t, r) (combine idx rows) -> row_at idx rows t = Some r.
  Proof.
    revert rows; induction idx as [|i idx IH]; intros [|r0 rows]; simpl; try tauto.
    intros Hn [H|H]; [inversion H; subst; rewrite Z.eqb_refl; auto|].
    inversion Hn; subst. destruct (Z.eqb_spec t i) as [->|]; auto.
    exfalso; apply H2. eapply in_combine_l; eauto.
  Qed.

  (** A row that survives dropna after an alignment has a partner in the right operand. *)
  Lemma falign_dropna_loc op a b t r :
    nisnan nnan = true ->
    In (t, r) (combine (findex (fdropna_all (falign op a b))) (fvals (fdropna_all (falign op a b)))) ->
    exists r1, floc b t = Some r1.
  Proof.
    intros Hn. unfold fdropna_all; simpl. rewrite combine_map_fst_snd.
    rewrite filter_In; intros [Hin Hnn]; simpl in Hnn.
    assert (H : exists r0, r = match floc b t with
                        | Some r' => map2 op r0 r'
                        | None => map (fun _ => nnan) r0 end).
    { clear Hnn. revert Hin. generalize (fvals a). induction (findex a) as [|i idx IH]; intros [|r0 rows]; simpl; try tauto.
      intros [H|H]; [inversion H; subst; eauto | eauto]. }
    destruct H as [r0 ->]. destruct (floc b t); eauto.
    exfalso. unfold all_nan in Hnn. rewrite forallb_map in Hnn.
    rewrite (proj2 (forallb_forall _ _)) in Hnn; [discriminate|auto].
  Qed.

  Lemma In_index_combine {A B} (l1 : list A) (l2 : list B) x :
    length l1 = length l2 -> In x l1 -> exists y, In (x, y) (combine l1 l2).
  Proof.
    revert l2; induction l1 as [|a l1 IH]; intros [|b l2]; simpl; intros HL H; try tauto; try lia.
    destruct H as [->|H]; [exists b; auto|]. destruct (IH l2) as [y Hy]; auto. exists y; auto.
  Qed.

  Lemma dropna_index_incl (f : frame time) : incl (findex (fdropna_all f)) (findex f).
  Proof.
    intros t. unfold fdropna_all; simpl. rewrite in_map_iff. intros [[t' r] [H1 H2]]; simpl in H1; subst.
    apply filter_In in H2. eapply in_combine_l. apply (proj1 H2).
  Qed.

  Lemma clip_index_incl f c : incl (findex (clip f c)) (findex f).
  Proof.
    unfold clip; destruct (truthy c) as [c'|];
      [apply (dropna_index_incl (fmap (clip1 c') f)) | apply dropna_index_incl].
  Qed.

  Lemma center_index_incl b m f : incl (findex (fst (center_tot b m f))) (findex f).
  Proof. destruct m; simpl; [|apply incl_refl]. apply (dropna_index_incl (falign _ _ _)). Qed.

  Lemma cov_tot_fst b mp adj : good adj -> incl (map fst (cov_tot b mp adj)) (findex adj).
  Proof.
    intros [H1 _] t. unfold cov_tot. rewrite map_map; simpl. rewrite in_map_iff.
    intros [p [Hp Hin]]. apply filter_In in Hin. destruct Hin as [Hin _].
    erewrite <- (gen_tot_fst mmap mmap2 b (fun x => outer x x) mp None (fvals adj) (findex adj)) by auto.
    subst; apply in_map; auto.
  Qed.

  Lemma clip1_nan c : nisnan nnan = true -> clip1 c nnan = nnan.
  Proof. intros H; unfold clip1; rewrite H; auto. Qed.

  (** A time of the clipped quotient has a volatility. *)
  Lemma clip_falign_loc op a b c t :
    nisnan nnan = true -> good a ->
    In t (findex (clip (falign op a b) c)) -> exists r1, floc b t = Some r1.
  Proof.
    intros Hn Ha Hin. unfold clip in Hin. destruct (truthy c) as [c'|].
    - assert (Hg : good (fmap (clip1 c') (falign op a b))) by (apply good_fmap, good_falign; auto).
      pose proof (good_dropna _ Hg) as [HL _].
      destruct (In_index_combine _ _ _ HL Hin) as [r Hr].
      unfold fdropna_all in Hr; simpl in Hr. rewrite combine_map_fst_snd, filter_In in Hr.
      destruct Hr as [Hr Hnn]; simpl in Hnn.
      assert (H : exists r0, r = map (clip1 c') match floc b t with
                        | Some r' => map2 op r0 r'
                        | None => map (fun _ => nnan) r0 end).
      { clear Hnn Hin Hg HL. revert Hr. unfold good in Ha. clear Ha. generalize (fvals a).
        induction (findex a) as [|i idx IH]; intros [|r0 rows]; simpl; try tauto.
        intros [H|H]; [inversion H; subst; eauto | eauto]. }
      destruct H as [r0 ->]. destruct (floc b t); eauto.
      exfalso. unfold all_nan in Hnn. rewrite map_map, forallb_map in Hnn.
      rewrite (proj2 (forallb_forall _ _)) in Hnn; [discriminate|].
      intros; rewrite clip1_nan; auto.
    - pose proof (good_dropna _ (good_falign op a b Ha)) as [HL _].
      destruct (In_index_combine _ _ _ HL Hin) as [r Hr].
      eapply falign_dropna_loc; eauto.
  Qed.

  Lemma center_true_loc b f t :
    nisnan nnan = true -> good f ->
    In t (findex (fst (center_tot b true f))) -> exists r, floc (snd (center_tot b true f)) t = Some r.
  Proof.
    intros Hn Hf Hin. cbn [center_tot fst snd] in *.
    pose proof (good_dropna _ (good_falign nsub f (meanf_tot b 0 None f) Hf)) as [HL _].
    destruct (In_index_combine _ _ _ HL Hin) as [r Hr].
    eapply falign_dropna_loc; eauto.
  Qed.

  Lemma loc_or_raise_eq f t r : floc f t = Some r -> loc_or_raise f t = Ok (loc0 f t).
  Proof. unfold loc_or_raise, loc0; intros ->; auto. Qed.

  (** ** The model in terms of the total pipeline *)
  Definition opt_beta (m : bool) (h : option num) : res num := if m then beta_of h None else Ok n0.

  Theorem iterated_ewma_full P f :
    nisnan nnan = true -> good f ->
    iterated_ewma P f =
    (do b1 <- opt_beta (use_mean P) (or_else (mu_halflife1 P) (vola_halflife P));
     if use_mean P && isnil (fvals (prep P f)) then Raise IndexError else
     do bv <- beta_of (vola_halflife P) None;
     if isnil (fvals (ret_tot b1 P f)) then Raise IndexError else
     do b2 <- opt_beta (use_mean P) (or_else (mu_halflife2 P) (cov_halflife P));
     if use_mean P && isnil (fvals (adj0_tot b1 bv P f)) then Raise IndexError else
     do bc <- beta_of (cov_halflife P) None;
     if isnil (fvals (adj_tot b1 bv b2 P f)) then Raise IndexError else Ok (it_tot b1 bv b2 bc P f)).
  Proof.
    intros Hn Hf. unfold iterated_ewma.
    fold (prep P f). pose proof (good_prep P f Hf) as Hp.
    destruct (opt_beta (use_mean P) (or_else (mu_halflife1 P) (vola_halflife P))) as [b1|e1] eqn:H1.
    2:{ unfold opt_beta in H1. destruct (use_mean P); [|discriminate].
        unfold center, ewma_mean, general. rewrite H1. reflexivity. }
    cbn [bind].
    assert (H1' : use_mean P = true -> beta_of (or_else (mu_halflife1 P) (vola_halflife P)) None = Ok b1).
    { intros E; rewrite E in H1; exact H1. }
    rewrite (center_eq _ _ _ b1 Hp H1').
    destruct (use_mean P && isnil (fvals (prep P f))) eqn:E1; cbn [bind]; auto.
    rewrite (surjective_pairing (center_tot b1 (use_mean P) (prep P f))).
    fold (ret_tot b1 P f) (retmean_tot b1 P f).
    pose proof (good_ret b1 P f Hf) as Hr.
    destruct (beta_of (vola_halflife P) None) as [bv|ev] eqn:Hv.
    2:{ unfold volatility, variance, ewma_mean, general. rewrite Hv. reflexivity. }
    cbn [bind].
    rewrite (volatility_eq _ _ _ _ bv Hr Hv).
    destruct (isnil (fvals (ret_tot b1 P f))) eqn:E2; cbn [bind]; auto.
    fold (volaf_tot b1 bv P f) (adj0_tot b1 bv P f).
    pose proof (good_adj0 b1 bv P f Hf) as Ha.
    destruct (opt_beta (use_mean P) (or_else (mu_halflife2 P) (cov_halflife P))) as [b2|e2] eqn:H2.
    2:{ unfold opt_beta in H2. destruct (use_mean P); [|discriminate].
        unfold center, ewma_mean, general. rewrite H2. reflexivity. }
    cbn [bind].
    assert (H2' : use_mean P = true -> beta_of (or_else (mu_halflife2 P) (cov_halflife P)) None = Ok b2).
    { intros E; rewrite E in H2; exact H2. }
    rewrite (center_eq _ _ _ b2 Ha H2').
    destruct (use_mean P && isnil (fvals (adj0_tot b1 bv P f))) eqn:E3; cbn [bind]; auto.
    rewrite (surjective_pairing (center_tot b2 (use_mean P) (adj0_tot b1 bv P f))).
    fold (adj_tot b1 bv b2 P f) (adjmean_tot b1 bv b2 P f).
    destruct (beta_of (cov_halflife P) None) as [bc|ec] eqn:Hc.
    2:{ unfold ewma_cov, general. rewrite Hc. reflexivity. }
    cbn [bind].
    rewrite (ewma_cov_eq _ _ _ bc Hc).
    destruct (isnil (fvals (adj_tot b1 bv b2 P f))) eqn:E4; cbn [bind]; auto.
    unfold it_tot. apply mapM_ok. intros [t m] Hin. cbn [fst snd].
    assert (Ht : In t (findex (adj_tot b1 bv b2 P f))).
    { eapply cov_tot_fst; [apply good_adj; auto|]. apply in_map_iff. exists (t, m); split; eauto. }
    assert (Ht0 : In t (findex (adj0_tot b1 bv P f))).
    { eapply center_index_incl; eauto. }
    assert (Htr : In t (findex (ret_tot b1 P f))).
    { unfold adj0_tot, adjusted in Ht0. apply clip_index_incl in Ht0. exact Ht0. }
    destruct (clip_falign_loc _ _ _ _ _ Hn Hr Ht0) as [r1 Hr1].
    rewrite (loc_or_raise_eq _ _ _ Hr1). cbn [bind]. unfold item. cbn [fst snd].
    destruct (use_mean P) eqn:Em; cbn [bind]; auto.
    unfold retmean_tot, adjmean_tot. rewrite Em.
    unfold ret_tot in Htr. unfold adj_tot in Ht. rewrite Em in Htr, Ht.
    destruct (center_true_loc _ _ _ Hn Hp Htr) as [r2 Hr2].
    destruct (center_true_loc _ _ _ Hn Ha Ht) as [r3 Hr3].
    rewrite (loc_or_raise_eq _ _ _ Hr2), (loc_or_raise_eq _ _ _ Hr3). reflexivity.
  Qed.

  Lemma center_nil_m b m f : m && isnil (fvals f) = true -> isnil (fvals (fst (center_tot b m f))) = true.
  Proof.
    intros H; apply andb_true_iff in H; destruct H as [_ H]. apply isnil_true in H.
    rewrite center_nil; auto.
  Qed.

  Theorem iterated_ewma_eq P f b1 bv b2 bc :
    nisnan nnan = true -> good f ->
    (use_mean P = true -> beta_of (or_else (mu_halflife1 P) (vola_halflife P)) None = Ok b1) ->
    beta_of (vola_halflife P) None = Ok bv ->
    (use_mean P = true -> beta_of (or_else (mu_halflife2 P) (cov_halflife P)) None = Ok b2) ->
    beta_of (cov_halflife P) None = Ok bc ->
    iterated_ewma P f =
    if isnil (fvals (adj_tot b1 bv b2 P f)) then Raise IndexError else Ok (it_tot b1 bv b2 bc P f).
  Proof.
    intros Hn Hf H1 Hv H2 Hc. rewrite iterated_ewma_full by auto. rewrite Hv, Hc. cbn [bind].
    assert (G : forall b1' b2', (use_mean P = true -> b1' = b1) -> (use_mean P = true -> b2' = b2) ->
       ret_tot b1' P f = ret_tot b1 P f /\ adj0_tot b1' bv P f = adj0_tot b1 bv P f /\
       adj_tot b1' bv b2' P f = adj_tot b1 bv b2 P f /\ it_tot b1' bv b2' bc P f = it_tot b1 bv b2 bc P f).
    { intros b1' b2' G1 G2.
      unfold it_tot, adjmean_tot, adj_tot, adj0_tot, volaf_tot, retmean_tot, ret_tot.
      destruct (use_mean P); [rewrite G1, G2 by auto; auto|]. cbn [center_tot fst snd]. auto. }
    assert (K1 : exists b1', opt_beta (use_mean P) (or_else (mu_halflife1 P) (vola_halflife P)) = Ok b1' /\
                             (use_mean P = true -> b1' = b1)).
    { unfold opt_beta. destruct (use_mean P); [rewrite H1 by auto; eauto|]. exists n0; split; auto; discriminate. }
    assert (K2 : exists b2', opt_beta (use_mean P) (or_else (mu_halflife2 P) (cov_halflife P)) = Ok b2' /\
                             (use_mean P = true -> b2' = b2)).
    { unfold opt_beta. destruct (use_mean P); [rewrite H2 by auto; eauto|]. exists n0; split; auto; discriminate. }
    destruct K1 as (b1' & -> & K1), K2 as (b2' & -> & K2). cbn [bind].
    destruct (G b1' b2' K1 K2) as (-> & -> & -> & ->).
    destruct (use_mean P && isnil (fvals (prep P f))) eqn:E1.
    { apply (center_nil_m b1) in E1. apply isnil_true in E1.
      unfold adj_tot. rewrite center_nil; auto. apply adjusted_nil; auto. }
    destruct (isnil (fvals (ret_tot b1 P f))) eqn:E2.
    { apply isnil_true in E2. unfold adj_tot. rewrite center_nil; auto. apply adjusted_nil; auto. }
    destruct (use_mean P && isnil (fvals (adj0_tot b1 bv P f))) eqn:E3; auto.
    apply (center_nil_m b2) in E3. unfold adj_tot. rewrite E3. reflexivity.
  Qed.

End Tot.
