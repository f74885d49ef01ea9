(** * Every run of iterated_ewma on finite data, without any assumption on which rows move. *)
From Coq Require Import String Reals Lra Psatz List Bool ZArith Arith Lia Sorted.
From Verif Require Import Num Py ListFacts Ewma EwmaTot EwmaPrefix EwmaEquiv XRFacts Spec SpecEwma EwmaReal EwmaTab EwmaFin EwmaProps EwmaProps2 EwmaProps3 EwmaClosed.
Import ListNotations.
Local Open Scope R_scope.

Lemma dfb_true y v : dfb y v = true <-> v <> 0 \/ y <> 0.
Proof. unfold dfb. destruct (Req_EM_T v 0), (Req_EM_T y 0); split; intros; try tauto; try discriminate; auto. Qed.

Lemma nth_skipn_eq {A} (l : list A) a i d : nth i (skipn a l) d = nth (a + i) l d.
Proof. revert l; induction a; intros [|b l]; simpl; auto; destruct i; auto. Qed.

Section Any.
  Variables (P : params (N := XR)) (f : frame time) (x : nat -> nat -> R) (hv hc h1 h2 : R) (rc : option R).
  Hypothesis HS : settings P hv hc h1 h2 rc.
  Hypothesis Hf : valid_returns f.
  Hypothesis Hx : returns_are (nan_to_num P) f x.
  Let n := length (fcols f).
  Let T := length (findex f).
  Let fp := first_pos (min_periods_vola P).
  Let fc := first_pos (min_periods_cov P).
  Let y := centred (use_mean P) h1 x.
  Let v := fun j s => sqrt (winsor_var hv (min_periods_vola P) rc (y j) s).

  Lemma run_total : exists rows : list nat,
    StronglySorted lt rows /\
    (forall k, In k rows <-> (fp <= k < T)%nat /\ exists j, (j < n)%nat /\ (v j k <> 0 \/ y j k <> 0)) /\
    (rows = [] -> iterated_ewma P f = Raise IndexError) /\
    (rows <> [] -> exists outs, iterated_ewma P f = Ok outs /\
       map itime outs = map (fun k => nth k (findex f) 0%Z) (skipn fc rows) /\
       forall i o, nth_error outs i = Some o ->
       let r := (fc + i)%nat in
       let k := nth r rows 0%nat in
       let z := fun j s => standardised rc (y j (nth s rows 0%nat)) (v j (nth s rows 0%nat)) in
       let a := centred (use_mean P) h2 z in
       let c := fun p q => ewavg (decay hc) (fun s => a p s * a q s) r in
       forall p, (p < n)%nat ->
         vol_at o p = Fin (v p k) /\
         mean_at o p = Fin (if use_mean P then ewavg (decay h1) (x p) k + v p k * ewavg (decay h2) (z p) r else 0) /\
         forall q, (q < n)%nat ->
           ((exists s, (s <= r)%nat /\ a p s <> 0) -> (exists s, (s <= r)%nat /\ a q s <> 0) ->
              0 < c p p /\ 0 < c q q /\ cov_at o p q = Fin (v p k * v q k * (c p q / sqrt (c p p * c q q)))) /\
           ((forall s, (s <= r)%nat -> a p s = 0) \/ (forall s, (s <= r)%nat -> a q s = 0) -> cov_at o p q = NaN)).
  Proof.
    pose proof (settings_usable _ _ _ _ _ _ HS) as HU.
    set (K := kp P hv h1 rc (findex f) (fcols f) x).
    assert (Ev : forall j s, pv P hv h1 rc x j s = v j s).
    { intros j s. unfold pv, rvol, v. rewrite winsor_rst; [reflexivity|apply (us_v _ _ _ _ _ _ HU)|].
      eapply okc_sqo, (us_clip _ _ _ _ _ _ HU). }
    exists K. split; [apply K_sorted|]. split; [|split].
    - intros k. unfold K, kp. rewrite filter_In, in_seq, andb_true_iff, Nat.leb_le, existsb_exists. fold T.
      split.
      + intros (H1 & H2 & j & Hj & Hd). apply in_seq in Hj. split; [unfold fp, first_pos; lia|].
        exists j. split; [unfold n; lia|]. apply dfb_true in Hd. rewrite Ev in Hd. exact Hd.
      + intros (H1 & j & Hj & Hd). split; [lia|]. split; [unfold fp, first_pos in H1; lia|].
        exists j. split; [apply in_seq; unfold n in Hj; lia|]. apply dfb_true. rewrite Ev. exact Hd.
    - intros E. rewrite (iterated_explicit P f x hv hc h1 h2 rc HS Hf Hx). cbv zeta. fold K. rewrite E. reflexivity.
    - intros Hne. rewrite (iterated_explicit P f x hv hc h1 h2 rc HS Hf Hx). cbv zeta. fold K.
      assert (EN : isnil K = false) by (destruct K; [congruence|reflexivity]). rewrite EN. clear Hne EN.
      assert (EK2 : kp P hv h1 rc (findex f) (fcols f) x = K) by reflexivity. clearbody K.
      eexists. split; [reflexivity|]. rewrite late_first. fold fc. split.
      + rewrite map_map. apply (list_eq_nth 0%Z).
        * rewrite !map_length, seq_length, skipn_length. reflexivity.
        * intros i Hi. rewrite map_length, seq_length in Hi.
          rewrite (nth_map_lt _ (seq _ _) _ 0%nat) by (rewrite seq_length; lia).
          rewrite (nth_map_lt _ (skipn _ _) _ 0%nat) by (rewrite skipn_length; lia).
          rewrite seq_nth by lia. unfold pitem. cbn [itime]. unfold kpos, tm. rewrite EK2, nth_skipn_eq. reflexivity.
      + intros i o Ho p Hp.
        set (r := (fc + i)%nat). set (k := nth r K 0%nat).
        set (z := fun j s => standardised rc (y j (nth s K 0%nat)) (v j (nth s K 0%nat))).
        set (a := centred (use_mean P) h2 z).
        set (c := fun p q => ewavg (decay hc) (fun s => a p s * a q s) r).
        assert (Hi : (i < length K - fc)%nat).
        { assert (H : nth_error (map (pitem P hv hc h1 h2 rc (findex f) (fcols f) x) (seq fc (length K - fc))) i <> None) by congruence.
          apply nth_error_Some in H. rewrite map_length, seq_length in H. exact H. }
        rewrite nth_error_map in Ho. rewrite (nth_error_nth' _ 0%nat) in Ho by (rewrite seq_length; lia).
        rewrite seq_nth in Ho by lia. cbn [option_map] in Ho. injection Ho as Ho. subst o.
        fold r.
        assert (Hk' : kpos P hv h1 rc (findex f) (fcols f) x r = k) by (unfold kpos; rewrite EK2; reflexivity).
        assert (Ez : forall j s, pa0 P hv h1 rc (findex f) (fcols f) x j s = z j s).
        { intros j s. unfold pa0, z, kpos. rewrite EK2, Ev. apply radj_standardised.
          - intros c0 E. eapply (rc_ne P); eauto.
          - intros E E0. apply (pv_zero_none P hv hc h1 h2 rc HU); auto. rewrite Ev; auto. }
        assert (Ea : forall j s, pa P hv h1 h2 rc (findex f) (fcols f) x j s = a j s).
        { intros j s. unfold pa, cen, a, centred. rewrite Ez. destruct (use_mean P); [|reflexivity].
          f_equal. apply ewavg_ext. intros; apply Ez. }
        assert (Ec : forall p q, pc P hv hc h1 h2 rc (findex f) (fcols f) x r p q = c p q).
        { intros p' q'. unfold pc, c. apply ewavg_ext. intros s Hs. rewrite !Ea. reflexivity. }
        assert (Hb : 0 < decay hc < 1) by (apply (hb_c P hv hc h1 h2 rc HU)).
        assert (Zc : forall j, c j j = 0 <-> forall s, (s <= r)%nat -> a j s = 0).
        { intros j. unfold c. rewrite ewavg_zero_iff; [|exact Hb|intros; nra]. split; intros H s Hs; specialize (H s Hs).
          - apply Rmult_integral in H; tauto.
          - rewrite H; ring. }
        assert (Nc : forall j, 0 <= c j j) by (intros j; unfold c; apply ewavg_nonneg; [exact Hb|intros; nra]).
        split; [|split].
        * rewrite vol_at_pitem by auto. rewrite Hk', Ev. reflexivity.
        * unfold mean_at, pitem. cbn [imean]. destruct (use_mean P) eqn:Em.
          -- rewrite (nth_map_lt _ _ _ 0%nat) by (rewrite seq_length; auto). rewrite nth_seq0 by auto.
             rewrite Hk', Ev. do 3 f_equal. apply ewavg_ext. intros s Hs. apply Ez.
          -- rewrite (nth_map_lt _ _ _ EmptyString) by auto. reflexivity.
        * intros q Hq. rewrite cov_at_pitem by auto. unfold pcov. rewrite !Ec, Hk', !Ev. split.
          -- intros (sp & Hsp & Ap) (sq & Hsq & Aq).
             assert (Zp : c p p <> 0) by (intros H; apply Ap; apply (proj1 (Zc p) H); exact Hsp).
             assert (Zq : c q q <> 0) by (intros H; apply Aq; apply (proj1 (Zc q) H); exact Hsq).
             pose proof (Nc p). pose proof (Nc q).
             destruct (Req_EM_T (c p p) 0); [congruence|]. destruct (Req_EM_T (c q q) 0); [congruence|].
             change (0 < c p p /\ 0 < c q q /\ Fin (v p k * (c p q / (sqrt (c p p) * sqrt (c q q))) * v q k) = Fin (v p k * v q k * (c p q / sqrt (c p p * c q q)))).
             split; [lra|]. split; [lra|].
             f_equal. rewrite sqrt_mult by auto. unfold Rdiv. ring.
          -- intros [Z|Z].
             ++ apply Zc in Z. destruct (Req_EM_T (c p p) 0); congruence.
             ++ apply Zc in Z. destruct (Req_EM_T (c p p) 0); [auto|]. destruct (Req_EM_T (c q q) 0); congruence.
  Qed.
End Any.
