(** * Shapes, re-ordering and re-scaling of iterated_ewma in terms of the specification vocabulary. *)
From Coq Require Import String Reals Lra Psatz List Bool ZArith Arith Lia Permutation.
From Verif Require Import Num Py ListFacts Ewma EwmaTot EwmaPrefix EwmaEquiv XRFacts Spec SpecEwma EwmaReal EwmaTab EwmaFin EwmaProps.
Import ListNotations.

Section Shape.
  Context {N : Num}.

  Lemma valid_fw f : valid_returns f -> fw (length (fcols f)) f.
  Proof. intros H. split; [apply valid_good; auto|]. apply H. Qed.

  Lemma map2_rows_len n (vola : list num) (v : list num) (rows : list (list num)) (g : num -> num -> num -> num) :
    rows_len n rows -> length vola = n -> rows_len n (map2 (fun vi row => map2 (g vi) row vola) v rows).
  Proof.
    intros Hr Hv. revert v. induction Hr as [|r rows H Hr IH]; intros [|a v]; simpl; constructor; auto.
    rewrite map2_length. lia.
  Qed.

  Lemma scale_cov_wf n vola m : sq n (fvals m) -> length (findex m) = n -> length (fcols m) = n -> length vola = n -> 
    wf_frame (scale_cov vola m).
  Proof.
    intros [H1 H2] H3 H4 H5. unfold wf_frame, scale_cov. cbn [findex fcols fvals].
    assert (Ld : length (map inv_vol (diagonal (fvals m))) = n).
    { unfold diagonal. rewrite !map_length, seq_length. auto. }
    split.
    - rewrite !map2_length. rewrite H3, Ld, H1, H5. lia.
    - rewrite H4. apply map2_rows_len; auto. apply map2_rows_len; auto.
  Qed.

  Lemma out_shape P f outs o : nisnan nnan = true -> valid_returns f ->
    iterated_ewma P f = Ok outs -> In o outs -> well_shaped (fcols f) o.
  Proof.
    intros Hnan Hf HO Hin. set (n := length (fcols f)).
    destruct (iterated_betas _ _ _ HO) as (b1 & bv & b2 & bc & Hb).
    pose proof (valid_good f Hf) as Hg. pose proof (valid_fw f Hf) as Hfw. fold n in Hfw.
    rewrite (iterated_ewma_betas _ _ _ _ _ _ Hnan Hg Hb) in HO.
    destruct (isnil _); [discriminate|]. inversion HO; subst outs; clear HO.
    unfold it_tot in Hin. apply in_map_iff in Hin. destruct Hin as ([t m] & <- & Hin).
    destruct (emitted_locs Hnan P f b1 bv b2 bc t m Hg Hin) as ((rv & Hv) & Hrm & Ham & _).
    pose proof (cov_tot_sq n P f b1 bv b2 bc t m Hfw Hin) as Hsq.
    assert (Fr : fcols (ret_tot b1 P f) = fcols f).
    { unfold ret_tot. rewrite fcols_center. unfold prep. destruct (nan_to_num P); reflexivity. }
    assert (Fa : fcols (adj_tot b1 bv b2 P f) = fcols f).
    { unfold adj_tot. rewrite fcols_center. unfold adj0_tot, adjusted.
      rewrite <- Fr. unfold clip. destruct (truthy (p_clip_at P)); reflexivity. }
    assert (Hcm : findex m = fcols f /\ fcols m = fcols f).
    { rewrite <- Fa. apply in_map_iff in Hin. destruct Hin as (x & E & _). inversion E; auto. }
    destruct Hcm as [E1 E2].
    assert (L1 : length (loc0 (volaf_tot b1 bv P f) t) = n)
      by (eapply loc0_len; [apply fw_volaf; eauto|]; eauto).
    unfold item, well_shaped. cbn [fst snd itime imean icov ivol]. fold n.
    split; [|split; [exact L1|split; [exact E1|split; [exact E2|]]]].
    - destruct (use_mean P) eqn:Em.
      + destruct (Hrm eq_refl) as (rm & Hrm'). destruct (Ham eq_refl) as (ra & Ham').
        unfold scale_mean. rewrite !map2_length, L1.
        assert (L2 : length (loc0 (retmean_tot b1 P f) t) = n) by (eapply loc0_len; [apply fw_retmean; eauto|]; eauto).
        assert (L3 : length (loc0 (adjmean_tot b1 bv b2 P f) t) = n) by (eapply loc0_len; [apply fw_adjmean; eauto|]; eauto).
        rewrite L2, L3. lia.
      + rewrite map_length, Fr. reflexivity.
    - apply (scale_cov_wf n); auto; unfold n; congruence.
  Qed.

  Lemma reorder_run P f p : nisnan nnan = true -> valid_returns f ->
    Permutation p (seq 0 (length (fcols f))) ->
    iterated_ewma P (reorder_frame p f) =
    match iterated_ewma P f with Ok outs => Ok (map (reorder_item p) outs) | Raise e => Raise e end.
  Proof.
    intros Hnan Hf Hp.
    pose proof (iterated_ewma_tr (length (fcols f)) p Hp Hnan _ _ _ P f (equivariant_ident) (valid_good f Hf)
                  (proj2 (proj1 Hf)) eq_refl) as H.
    change (reorder_frame p f) with (trf p ident f). rewrite H.
    destruct (iterated_ewma P f) as [outs|e] eqn:E; auto. f_equal. apply map_ext_in. intros o Ho.
    destruct (out_shape P f outs o Hnan Hf E Ho) as (_ & _ & _ & E4 & E5 & E6).
    unfold tri, reorder_item. f_equal. f_equal. unfold trm, reorder. rewrite E4 in E6.
    apply map_ext_in. intros q Hq.
    assert (Hql : q < length (fvals (icov o))).
    { rewrite <- E5. destruct (out_shape P f outs o Hnan Hf E Ho) as (_ & _ & -> & _). eapply p_lt; eauto. }
    rewrite (nth_map_lt _ (fvals (icov o)) q [] []) by auto. reflexivity.
  Qed.
End Shape.

Lemma rescale_run P f g s : (forall j, 0 < s j)%R -> valid_returns f -> rescaled s f g ->
  same_run (rescaled_item s) (iterated_ewma P f) (iterated_ewma P g).
Proof.
  intros Hs Hf (G1 & G2 & G3 & G4). set (n := length (fcols f)). set (p := seq 0 n).
  assert (Eg : g = trf p (fun q => xs (s q)) f).
  { destruct g as [gi gc gv]; cbn [findex fcols fvals] in *. subst gi gc. unfold trf. f_equal.
    - unfold trc, p, n. symmetry. clear. induction (fcols f) as [|c l IH]; auto. simpl. f_equal.
      rewrite <- seq_shift, map_map. exact IH.
    - destruct G3 as [G3 G5]. cbn [findex fcols fvals] in *. destruct Hf as [[F1 F2] _].
      apply (list_eq_nth []); [rewrite map_length; congruence|]. intros k Hk. rewrite <- G3 in Hk.
      rewrite (nth_map_lt _ _ _ []) by congruence. apply (list_eq_nth NaN).
      + unfold tr, p. rewrite map_length, seq_length. apply (Forall_nth_lt _ _ _ _ G5). congruence.
      + intros j Hj. rewrite (Forall_nth_lt _ _ [] k G5) in Hj by congruence.
        pose proof (G4 k j Hk Hj) as E. unfold entry in E. cbn [fvals] in E. etransitivity; [exact E|]. clear E.
        unfold tr, p. rewrite (nth_map_lt _ _ _ 0) by (rewrite seq_length; auto). rewrite nth_seq0 by auto.
        unfold times, xs. f_equal. symmetry. apply (entry_n0 f k j); auto. }
  assert (Hp : Permutation p (seq 0 n)) by reflexivity.
  pose proof (iterated_ewma_tr (N := XR) n p Hp eq_refl _ _ _ P f (equivariant_scale s Hs) (valid_good f Hf)
                (proj2 (proj1 Hf)) eq_refl) as H.
  rewrite Eg, H. destruct (iterated_ewma P f) as [outs|e] eqn:E; simpl; auto.
  assert (HF : Forall (fun o => well_shaped (fcols f) o) outs).
  { apply Forall_forall. intros o Ho. eapply out_shape; eauto. }
  clear E H. induction HF as [|o outs Ho HF IH]; simpl; constructor; auto.
  destruct Ho as (L1 & L2 & L3 & L4 & L5 & L6). rewrite L3 in L5. rewrite L4 in L6.
  assert (Etrc : trc p (fcols f) = fcols f).
  { unfold trc, p, n. clear. induction (fcols f) as [|c l IH]; auto. simpl. f_equal.
    rewrite <- seq_shift, map_map. exact IH. }
  unfold rescaled_item, tri. cbn [itime icov findex fcols]. rewrite L3, L4, Etrc.
  split; [auto|]. split; [auto|]. split; [auto|]. fold n. intros j Hj.
  assert (GT : forall v, length v = n -> nth j (tr p (fun q => xs (s q)) v) NaN = times (s j) (nth j v NaN)).
  { intros v Hv. unfold tr, p. rewrite (nth_map_lt _ _ _ 0) by (rewrite seq_length; auto). rewrite nth_seq0 by auto.
    unfold times, xs. f_equal. apply nth_indep. rewrite Hv. exact Hj. }
  unfold mean_at, vol_at, cov_at. cbn [imean ivol icov fvals]. split; [apply GT; auto|]. split; [apply GT; auto|].
  intros q Hq. unfold trm, p. rewrite (nth_map_lt _ _ _ 0) by (rewrite seq_length; auto). rewrite nth_seq0 by auto.
  rewrite (nth_map_lt _ _ _ 0) by (rewrite seq_length; auto). rewrite nth_seq0 by auto.
  unfold times, xs. f_equal. apply nth_indep. rewrite (Forall_nth_lt _ _ [] j L6) by (rewrite <- L5; auto). auto.
Qed.
