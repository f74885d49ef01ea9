(** * Prefix stability of every stage of the ewma pipeline (no look-ahead), for every arithmetic. *)
From Coq Require Import String List Bool ZArith Arith Lia.
From Verif Require Import Num Py ListFacts Ewma EwmaTot.
Import ListNotations.

(** First [k] rows of a frame ([f.iloc[:k]]). *)
Definition frame_take {N : Num} (k : nat) (f : frame time) : frame time :=
  mkFrame (firstn k (findex f)) (fcols f) (firstn k (fvals f)).

Section Prefix.
  Context {N : Num}.

  Lemma general_loop_app {A V} (vmap2 : (num -> num -> num) -> V -> V -> V) beta (fct : A -> V) mp clip n e y y' :
    exists e', general_loop vmap2 beta fct mp clip n e (y ++ y') =
    general_loop vmap2 beta fct mp clip n e y ++ general_loop vmap2 beta fct mp clip (n + length y) e' y'.
  Proof.
    revert n e; induction y as [|r y IH]; intros n e; simpl.
    - exists e. rewrite Nat.add_0_r; auto.
    - destruct (IH (S n) (vmap2 (upd beta mp clip n) e (fct r))) as [e' He].
      exists e'. rewrite He. rewrite <- plus_n_Sm; auto.
  Qed.

  Lemma states_app {A V} (vmap2 : (num -> num -> num) -> V -> V -> V) beta (fct : A -> V) mp clip y y' :
    exists m, states vmap2 beta fct mp clip (y ++ y') = states vmap2 beta fct mp clip y ++ m.
  Proof.
    destruct y as [|r y]; simpl; eauto.
    destruct (general_loop_app vmap2 beta fct mp clip 1 (fct r) y y') as [e' ->]. eauto.
  Qed.

  Lemma mask_from_app {V} (vmap : (num -> num) -> V -> V) mp k l l' :
    mask_from vmap mp k (l ++ l') = mask_from vmap mp k l ++ mask_from vmap mp (k + length l) l'.
  Proof.
    revert k; induction l as [|e l IH]; intros k; simpl; [rewrite Nat.add_0_r; auto|].
    rewrite IH, <- plus_n_Sm. auto.
  Qed.

  Lemma gen_tot_app {A V} (vmap : (num -> num) -> V -> V) (vmap2 : (num -> num -> num) -> V -> V -> V)
        beta (fct : A -> V) mp clip y y' ti ti' :
    length ti = length y -> length ti' = length y' ->
    exists m, gen_tot vmap vmap2 beta fct mp clip (y ++ y') (ti ++ ti') =
              gen_tot vmap vmap2 beta fct mp clip y ti ++ m /\ map fst m = ti'.
  Proof.
    intros H H'. pose proof (gen_tot_fst vmap vmap2 beta fct mp clip (y ++ y') (ti ++ ti')) as Hf.
    rewrite !app_length in Hf. specialize (Hf ltac:(lia)).
    unfold gen_tot in *. destruct (states_app vmap2 beta fct mp clip y y') as [m Hm].
    rewrite Hm, mask_from_app in *.
    rewrite combine_app in * by (rewrite mask_from_length, states_length; auto).
    eexists; split; [reflexivity|].
    rewrite map_app in Hf. apply app_inv_head_iff with (l := ti).
    rewrite <- Hf. f_equal. symmetry; apply map_fst_combine.
    rewrite mask_from_length, states_length; lia.
  Qed.

  Definition ext (T : list time) (g f : frame time) : Prop :=
    fcols f = fcols g /\ good g /\ good f /\ (forall t, In t (findex g) -> ~ In t T) /\
    exists ti tv, findex f = findex g ++ ti /\ fvals f = fvals g ++ tv /\ length ti = length tv /\ incl ti T.

  Lemma ext_good T g f : ext T g f -> good g.
  Proof. unfold ext; tauto. Qed.
  Lemma ext_good' T g f : ext T g f -> good f.
  Proof. unfold ext; tauto. Qed.

  Lemma ext_fmap T h g f : ext T g f -> ext T (fmap h g) (fmap h f).
  Proof.
    intros (Hc & Hg & Hf & Hd & ti & tv & H1 & H2 & H3 & H4).
    repeat split; try apply good_fmap; auto. simpl.
    exists ti, (map (map h) tv). rewrite H2, map_app, map_length; auto.
  Qed.

  Lemma ext_prep T P g f : ext T g f -> ext T (prep P g) (prep P f).
  Proof. unfold prep; destruct (nan_to_num P); auto; apply ext_fmap. Qed.

  Lemma mean_tot_ext b mp clip T g f :
    ext T g f -> exists m, mean_tot b mp clip f = mean_tot b mp clip g ++ m /\ incl (map fst m) T.
  Proof.
    intros (Hc & [Hg Hng] & Hf & Hd & ti & tv & H1 & H2 & H3 & H4). unfold mean_tot. rewrite H1, H2.
    destruct (gen_tot_app (@map num num) map2 b (fun x => x) mp clip (fvals g) tv (findex g) ti)
      as (m & -> & Hm); auto.
    rewrite filter_app. eexists; split; [reflexivity|].
    intros t Ht. apply H4. rewrite <- Hm. rewrite in_map_iff in *. destruct Ht as (x & Hx & Hi).
    apply filter_In in Hi. exists x; tauto.
  Qed.

  Lemma mean_tot_incl b mp clip f : good f -> incl (map fst (mean_tot b mp clip f)) (findex f).
  Proof.
    intros [H1 H2] t. unfold mean_tot. rewrite in_map_iff. intros (p & <- & Hin).
    apply filter_In in Hin. rewrite <- (gen_tot_fst (@map num num) map2 b (fun x => x) mp clip (fvals f) (findex f)) by auto.
    apply in_map; tauto.
  Qed.

  Lemma ext_meanf b mp clip T g f : ext T g f -> ext T (meanf_tot b mp clip g) (meanf_tot b mp clip f).
  Proof.
    intros H. destruct (mean_tot_ext b mp clip T g f H) as (m & Hm & Hi).
    pose proof (ext_good _ _ _ H); pose proof (ext_good' _ _ _ H).
    destruct H as (Hc & Hg & Hf & Hd & _).
    split; [|split; [|split; [|split]]]; try apply good_meanf; auto.
    - intros t Ht. apply Hd. apply (mean_tot_incl b mp clip g); auto.
    - exists (map fst m), (map snd m). simpl. rewrite Hm, !map_app, !map_length; auto.
  Qed.

  Lemma row_at_app idx rows idx' rows' t :
    length idx = length rows -> ~ In t idx' ->
    row_at (idx ++ idx') (rows ++ rows') t = row_at idx rows t.
  Proof.
    revert rows; induction idx as [|i idx IH]; intros [|r rows]; simpl; intros HL Hn; try lia.
    - clear HL. revert rows'; induction idx' as [|i' idx' IH']; intros [|r' rows']; simpl in *; auto.
      destruct (Z.eqb_spec t i'); [subst; tauto|]. apply IH'; tauto.
    - destruct (t =? i)%Z; auto.
  Qed.

  Lemma ext_floc T g f t : ext T g f -> ~ In t T -> floc f t = floc g t.
  Proof.
    intros (Hc & [Hg _] & Hf & Hd & ti & tv & H1 & H2 & H3 & H4) Ht. unfold floc.
    rewrite H1, H2. apply row_at_app; auto.
  Qed.

  Lemma ext_falign T op a a' b b' :
    ext T a a' -> ext T b b' -> ext T (falign op a b) (falign op a' b').
  Proof.
    intros Ha Hb. pose proof (ext_good _ _ _ Ha) as Hga. pose proof (ext_good' _ _ _ Ha) as Hga'.
    destruct Ha as (Hc & _ & _ & Hd & ti & tv & H1 & H2 & H3 & H4).
    split; [|split; [|split; [|split]]]; try apply good_falign; auto.
    exists ti. simpl. rewrite H1, H2. rewrite map2_app by (apply Hga). eexists; split; [reflexivity|].
    split; [|split; auto].
    - f_equal. apply map2_ext_in. intros t r Hin. apply in_combine_l in Hin.
      rewrite (ext_floc _ _ _ _ Hb) by auto. reflexivity.
    - rewrite map2_length; lia.
  Qed.

  Lemma ext_dropna T g f : ext T g f -> ext T (fdropna_all g) (fdropna_all f).
  Proof.
    intros (Hc & Hg & Hf & Hd & ti & tv & H1 & H2 & H3 & H4).
    split; [|split; [|split; [|split]]]; try apply good_dropna; auto.
    - intros t Ht. apply Hd. apply dropna_index_incl; auto.
    - unfold fdropna_all; simpl. rewrite H1, H2, combine_app by (apply Hg).
      rewrite filter_app, !map_app. do 2 eexists; split; [reflexivity|]. split; [reflexivity|].
      rewrite !map_length; split; auto. intros t Ht. apply H4.
      rewrite in_map_iff in Ht; destruct Ht as (x & <- & Hx). apply filter_In in Hx.
      destruct x; eapply in_combine_l; apply Hx.
  Qed.

  Lemma ext_center b m T g f : ext T g f -> ext T (fst (center_tot b m g)) (fst (center_tot b m f)).
  Proof.
    destruct m; auto. intros; apply ext_dropna, ext_falign; auto. apply ext_meanf; auto.
  Qed.
  Lemma ext_center2 b m T g f : ext T g f -> ext T (snd (center_tot b m g)) (snd (center_tot b m f)).
  Proof.
    destruct m; [apply ext_meanf | apply ext_fmap].
  Qed.

  Lemma ext_vola b mp clip T g f : ext T g f -> ext T (vola_tot b mp clip g) (vola_tot b mp clip f).
  Proof. intros; apply ext_fmap, ext_meanf, ext_fmap; auto. Qed.

  Lemma ext_clip c T g f : ext T g f -> ext T (clip g c) (clip f c).
  Proof. unfold clip; destruct (truthy c); intros; apply ext_dropna; auto; apply ext_fmap; auto. Qed.

  Lemma ext_adjusted P T r r' v v' : ext T r r' -> ext T v v' -> ext T (adjusted P r v) (adjusted P r' v').
  Proof. intros; apply ext_fmap, ext_clip, ext_falign; auto. Qed.

  Lemma cov_tot_ext b mp T g f :
    ext T g f -> exists m, cov_tot b mp f = cov_tot b mp g ++ m /\ incl (map fst m) T.
  Proof.
    intros (Hc & [Hg Hng] & Hf & Hd & ti & tv & H1 & H2 & H3 & H4). unfold cov_tot. rewrite H1, H2, Hc.
    destruct (gen_tot_app mmap mmap2 b (fun x => outer x x) mp None (fvals g) tv (findex g) ti)
      as (m & -> & Hm); auto.
    rewrite filter_app, map_app. eexists; split; [reflexivity|].
    intros t Ht. apply H4. rewrite <- Hm. rewrite map_map in Ht. rewrite in_map_iff in *. destruct Ht as (x & Hx & Hi).
    apply filter_In in Hi. exists x; tauto.
  Qed.

  Theorem it_tot_ext b1 bv b2 bc P T g f :
    ext T g f ->
    exists m, it_tot b1 bv b2 bc P f = it_tot b1 bv b2 bc P g ++ m /\ incl (map itime m) T.
  Proof.
    intros H. pose proof (ext_prep T P g f H) as Hp.
    pose proof (ext_center b1 (use_mean P) _ _ _ Hp) as Hr.
    pose proof (ext_center2 b1 (use_mean P) _ _ _ Hp) as Hrm.
    pose proof (ext_vola bv (min_periods_vola P) (p_clip_at P) _ _ _ Hr) as Hv.
    pose proof (ext_adjusted P _ _ _ _ _ Hr Hv) as Ha0.
    pose proof (ext_center b2 (use_mean P) _ _ _ Ha0) as Ha.
    pose proof (ext_center2 b2 (use_mean P) _ _ _ Ha0) as Ham.
    destruct (cov_tot_ext bc (min_periods_cov P) _ _ _ Ha) as (m & Hm & Hi).
    unfold it_tot. fold (ret_tot b1 P g) (ret_tot b1 P f) in *.
    fold (retmean_tot b1 P g) (retmean_tot b1 P f) in *.
    fold (volaf_tot b1 bv P g) (volaf_tot b1 bv P f) in *.
    fold (adj0_tot b1 bv P g) (adj0_tot b1 bv P f) in *.
    fold (adj_tot b1 bv b2 P g) (adj_tot b1 bv b2 P f) in *.
    fold (adjmean_tot b1 bv b2 P g) (adjmean_tot b1 bv b2 P f) in *.
    rewrite Hm, map_app. eexists. split.
    - f_equal. apply map_ext_in. intros [t c] Hin.
      assert (Ht : ~ In t T).
      { destruct Ha as (_ & Hga & _ & Hd & _). apply Hd. eapply cov_tot_fst; eauto.
        apply in_map_iff. exists (t, c); eauto. }
      unfold item, loc0; simpl.
      rewrite (ext_floc _ _ _ t Hv), (ext_floc _ _ _ t Hrm), (ext_floc _ _ _ t Ham) by auto.
      destruct Hr as (-> & _). reflexivity.
    - rewrite map_map. intros t Ht. apply Hi. exact Ht.
  Qed.

  (** A run that returns has usable half-lives, a non-empty adjusted frame, and vice versa. *)
  Definition betas_ok (P : params) b1 bv b2 bc : Prop :=
    (use_mean P = true -> beta_of (or_else (mu_halflife1 P) (vola_halflife P)) None = Ok b1) /\
    beta_of (vola_halflife P) None = Ok bv /\
    (use_mean P = true -> beta_of (or_else (mu_halflife2 P) (cov_halflife P)) None = Ok b2) /\
    beta_of (cov_halflife P) None = Ok bc.

  Lemma center_betas f h m r : center f h 0 m = Ok r -> exists b, m = true -> beta_of h None = Ok b.
  Proof.
    unfold center; destruct m; [|exists n0; discriminate].
    unfold ewma_mean, general. destruct (beta_of h None) as [b|e]; simpl; [eauto|discriminate].
  Qed.

  Lemma iterated_betas P f outs : iterated_ewma P f = Ok outs -> exists b1 bv b2 bc, betas_ok P b1 bv b2 bc.
  Proof.
    unfold iterated_ewma, betas_ok.
    destruct (center _ _ 0 _) as [[r rm]|] eqn:E1; cbn [bind]; [|discriminate].
    destruct (center_betas _ _ _ _ E1) as [b1 H1].
    destruct (volatility _ _ _ _) as [v|] eqn:E2; cbn [bind]; [|discriminate].
    assert (H2 : exists bv, beta_of (vola_halflife P) None = Ok bv).
    { revert E2. unfold volatility, variance, ewma_mean, general.
      destruct (beta_of (vola_halflife P) None); cbn; [eauto|discriminate]. }
    destruct (center (adjusted _ _ _) _ 0 _) as [[a am]|] eqn:E3; cbn [bind]; [|discriminate].
    destruct (center_betas _ _ _ _ E3) as [b2 H3].
    destruct (ewma_cov _ _ _) as [c|] eqn:E4; cbn [bind]; [|discriminate].
    assert (H4 : exists bv, beta_of (cov_halflife P) None = Ok bv).
    { revert E4. unfold ewma_cov, general.
      destruct (beta_of (cov_halflife P) None); cbn; [eauto|discriminate]. }
    destruct H2 as [bv Hv], H4 as [bc Hc]. intros _. exists b1, bv, b2, bc. auto.
  Qed.

  Lemma iterated_ewma_betas P f b1 bv b2 bc :
    nisnan nnan = true -> good f -> betas_ok P b1 bv b2 bc ->
    iterated_ewma P f =
    if isnil (fvals (adj_tot b1 bv b2 P f)) then Raise IndexError else Ok (it_tot b1 bv b2 bc P f).
  Proof. intros Hn Hf (H1 & H2 & H3 & H4). apply iterated_ewma_eq; auto. Qed.

  Lemma ext_take f k : good f -> ext (skipn k (findex f)) (frame_take k f) f.
  Proof.
    intros Hf. destruct Hf as [H1 H2].
    assert (Hsplit : NoDup (firstn k (findex f) ++ skipn k (findex f))) by (rewrite firstn_skipn; auto).
    split; [auto|split; [|split; [split; auto|split]]].
    - split; simpl; [rewrite !firstn_length; lia|]. eapply NoDup_app_l; eauto.
    - simpl. intros t Ha Hb. eapply NoDup_app_disj; eauto.
    - exists (skipn k (findex f)), (skipn k (fvals f)). simpl.
      rewrite !firstn_skipn, !skipn_length. repeat split; rewrite ?H1; auto using incl_refl.
  Qed.

  Lemma adj_ext b1 bv b2 P T g f :
    ext T g f -> ext T (adj_tot b1 bv b2 P g) (adj_tot b1 bv b2 P f).
  Proof.
    intros H. apply ext_center, ext_adjusted; [|apply ext_vola]; apply ext_center, ext_prep; auto.
  Qed.

  Lemma cov_tot_nil b mp f : fvals f = [] -> cov_tot b mp f = [].
  Proof.
    intros H. unfold cov_tot, gen_tot. rewrite H. simpl. rewrite combine_nil. reflexivity.
  Qed.

  Theorem no_look_ahead P f k :
    nisnan nnan = true -> length (findex f) = length (fvals f) -> NoDup (findex f) ->
    match iterated_ewma P (frame_take k f) with
    | Ok outs => exists more, iterated_ewma P f = Ok (outs ++ more) /\
                              Forall (fun o => In (itime o) (skipn k (findex f))) more
    | Raise e => forall outs, iterated_ewma P f = Ok outs ->
                              e = IndexError /\ Forall (fun o => In (itime o) (skipn k (findex f))) outs
    end.
  Proof.
    intros Hn HL Hd. assert (Hf : good f) by (split; auto).
    pose proof (ext_take f k Hf) as He.
    destruct (iterated_ewma P (frame_take k f)) as [outs|e] eqn:E.
    - destruct (iterated_betas _ _ _ E) as (b1 & bv & b2 & bc & Hb).
      rewrite (iterated_ewma_betas _ _ _ _ _ _ Hn (ext_good _ _ _ He) Hb) in E.
      rewrite (iterated_ewma_betas _ _ _ _ _ _ Hn Hf Hb).
      destruct (isnil (fvals (adj_tot b1 bv b2 P (frame_take k f)))) eqn:En; [discriminate|].
      inversion E; subst.
      destruct (adj_ext b1 bv b2 P _ _ _ He) as (_ & _ & _ & _ & ti & tv & _ & Hv & _).
      rewrite Hv. destruct (fvals (adj_tot b1 bv b2 P (frame_take k f))); [discriminate|]. simpl.
      destruct (it_tot_ext b1 bv b2 bc P _ _ _ He) as (m & -> & Hm).
      exists m; split; auto. apply Forall_forall. intros o Ho. apply Hm, in_map; auto.
    - intros outs Ho. destruct (iterated_betas _ _ _ Ho) as (b1 & bv & b2 & bc & Hb).
      rewrite (iterated_ewma_betas _ _ _ _ _ _ Hn (ext_good _ _ _ He) Hb) in E.
      rewrite (iterated_ewma_betas _ _ _ _ _ _ Hn Hf Hb) in Ho.
      destruct (isnil (fvals (adj_tot b1 bv b2 P (frame_take k f)))) eqn:En; [|discriminate].
      split; [congruence|].
      destruct (isnil (fvals (adj_tot b1 bv b2 P f))) eqn:En2; [discriminate|]. inversion Ho; subst.
      destruct (it_tot_ext b1 bv b2 bc P _ _ _ He) as (m & -> & Hm).
      apply isnil_true in En. unfold it_tot at 1. rewrite (cov_tot_nil _ _ _ En). simpl.
      apply Forall_forall. intros o Ho'. apply Hm, in_map; auto.
  Qed.

End Prefix.
