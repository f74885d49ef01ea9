(** * Schedule of iterated_ewma without clipping: the second warm-up starts when the first asset moves. *)
From Coq Require Import Classical_Prop Classical_Pred_Type String Reals Lra Psatz List Bool ZArith Arith Lia.
From Verif Require Import Num Py ListFacts Ewma EwmaTot EwmaPrefix EwmaEquiv XRFacts Spec SpecEwma EwmaReal EwmaTab EwmaFin EwmaProps EwmaProps2 EwmaProps3.
Import ListNotations.
Local Open Scope R_scope.

Section First.
  Variables (P : params (N := XR)) (f : frame time) (x : nat -> nat -> R) (hv hc h1 h2 : R).
  Hypothesis HS : settings P hv hc h1 h2 None.
  Hypothesis Hf : valid_returns f.
  Hypothesis Hx : returns_are (nan_to_num P) f x.

  Let n := length (fcols f).
  Let T := length (findex f).
  Let HU := settings_usable _ _ _ _ _ _ HS.
  Let fp := first_pos (min_periods_vola P).
  Let fc := first_pos (min_periods_cov P).

  Let y := centred (use_mean P) h1 x.
  Lemma py_x j s : py P h1 x j s = y j s.
  Proof. reflexivity. Qed.
  Lemma pv_zero j k : pv P hv h1 None x j k = 0 <-> forall s, (s <= k)%nat -> y j s = 0.
  Proof.
    unfold pv, rvol. pose proof (hb_v P hv hc h1 h2 None HU) as Hb. cbn [sqo option_map]. rewrite rst_closed by auto.
    assert (H0 : 0 <= ewavg (decay hv) (fun s => py P h1 x j s * py P h1 x j s) k) by (apply ewavg_nonneg; auto; intros; nra).
    split.
    - intros E s Hs. apply sqrt_eq_0 in E; auto. apply ewavg_zero_iff with (s := s) in E; auto; [|intros; nra].
      rewrite py_x in E. apply Rmult_integral in E; tauto.
    - intros E. replace (ewavg (decay hv) (fun s => py P h1 x j s * py P h1 x j s) k) with 0; [apply sqrt_0|].
      symmetry. apply ewavg_zero_iff; auto; [intros; nra|]. intros s Hs. rewrite py_x, E by auto. ring.
  Qed.
  Lemma dfb_moved j k : dfb (py P h1 x j k) (pv P hv h1 None x j k) = true <-> exists s, (s <= k)%nat /\ y j s <> 0.
  Proof.
    unfold dfb. destruct (Req_EM_T (pv P hv h1 None x j k) 0) as [E|E].
    - pose proof (proj1 (pv_zero j k) E) as E0. rewrite py_x. destruct (Req_EM_T (y j k) 0) as [E1|E1].
      + split; [discriminate|]. intros (s & H1 & H2). elim H2; auto.
      + exfalso. apply E1. auto.
    - split; auto. intros _. apply not_all_not_ex. intros H. apply E. apply pv_zero. intros s Hs.
      destruct (Req_EM_T (y j s) 0); auto. elim (H s); auto.
  Qed.

  Lemma kp_first m : first_move y n m ->
    kp P hv h1 None (findex f) (fcols f) x = seq (Nat.max fp m) (T - Nat.max fp m).
  Proof.
    intros [(j & Hj & Hxm) H0]. unfold kp. fold n T.
    rewrite (filter_ext_in _ (fun k => (Nat.max fp m + 1 <=? k + 1)%nat)).
    - change (fun k => (Nat.max fp m + 1 <=? k + 1)%nat) with (fun k => (Nat.max fp m + 1 <=? k + 1)%nat).
      pose proof (late_first (Nat.max fp m + 1) T) as E. unfold late, first_pos in E. rewrite Nat.add_sub in E. exact E.
    - intros k Hk. apply in_seq in Hk. apply eq_true_iff_eq. rewrite andb_true_iff, existsb_exists, !Nat.leb_le.
      split.
      + intros [H1 (i & Hi & H2)]. apply in_seq in Hi. apply dfb_moved in H2. destruct H2 as (s & Hs & Hne).
        destruct (le_lt_dec m s); [unfold fp, first_pos; lia|]. elim Hne. apply H0; lia.
      + intros H. split; [unfold fp, first_pos in H; lia|]. exists j. split; [apply in_seq; lia|]. apply dfb_moved.
        exists m. split; auto. lia.
  Qed.

  Lemma schedule_first m : first_move y n m -> (Nat.max fp m < T)%nat ->
    exists outs, iterated_ewma P f = Ok outs /\ map itime outs = skipn (Nat.max fp m + fc) (findex f).
  Proof.
    intros H HT. rewrite (iterated_explicit P f x hv hc h1 h2 None HS Hf Hx). cbv zeta.
    pose proof (kp_first m H) as E. rewrite E.
    destruct (T - Nat.max fp m)%nat as [|d] eqn:Em; [lia|]. cbn [isnil seq].
    eexists; split; [reflexivity|]. rewrite map_map. cbn [length]. rewrite seq_length, <- Em.
    rewrite late_first. fold fc. rewrite <- map_tm_skipn. fold T.
    apply (list_eq_nth 0%Z).
    - rewrite !map_length, !seq_length. lia.
    - intros k Hk. rewrite map_length, seq_length in Hk.
      rewrite !(nth_map_lt _ _ _ 0%nat) by (rewrite seq_length; lia). rewrite !seq_nth by lia.
      unfold pitem. cbn [itime]. unfold kpos. rewrite E. rewrite seq_nth by lia. f_equal. lia.
  Qed.
  Lemma schedule_none : (forall j s, (j < n)%nat -> (s < T)%nat -> y j s = 0) -> iterated_ewma P f = Raise IndexError.
  Proof.
    intros H. rewrite (iterated_explicit P f x hv hc h1 h2 None HS Hf Hx). cbv zeta.
    assert (E : kp P hv h1 None (findex f) (fcols f) x = []).
    { destruct (kp P hv h1 None (findex f) (fcols f) x) as [|k l] eqn:E; auto.
      assert (Hk : In k (kp P hv h1 None (findex f) (fcols f) x)) by (rewrite E; simpl; auto).
      apply filter_In in Hk. destruct Hk as [H1 H2]. apply in_seq in H1. apply andb_true_iff in H2. destruct H2 as [_ H2].
      apply existsb_exists in H2. destruct H2 as (j & Hj & H2). apply in_seq in Hj. apply dfb_moved in H2.
      destruct H2 as (s & Hs & Hne). elim Hne. apply H; [unfold n; lia|unfold T; lia]. }
    rewrite E. reflexivity.
  Qed.
  Lemma schedule_late m : first_move y n m -> (T <= Nat.max fp m)%nat -> iterated_ewma P f = Raise IndexError.
  Proof.
    intros H HT. rewrite (iterated_explicit P f x hv hc h1 h2 None HS Hf Hx). cbv zeta. rewrite (kp_first m H).
    replace (T - Nat.max fp m)%nat with 0%nat by lia. reflexivity.
  Qed.
End First.
