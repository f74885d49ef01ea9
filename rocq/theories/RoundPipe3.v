(** * The same run in exact arithmetic. *)
From Coq Require Import String ZArith Reals Lra Psatz Lia List Bool Arith.
From Flocq Require Import Core BinarySingleNaN.
From Verif Require Import Num Py ListFacts Ewma EwmaTot EwmaPrefix EwmaEquiv EwmaTab Spec SpecEwma EwmaReal EwmaClosed EwmaFin EwmaProps EwmaProps2
  Ieee SpecRound SpecRound2 RoundFrame RoundPipe2.
Import ListNotations.
Local Open Scope R_scope.

Lemma exact_ffin L (f : frame (N := IEEE L) time) : valid_returns f -> exact_frame f = ffin (findex f) (fcols f) (fun j k => fval (fcell f k j)).
Proof.
  intros Hf. assert (E := fframe L f Hf). unfold exact_frame, ffin, ftab. f_equal.
  transitivity (map (map (fun x : b64 => Fin (fval x))) (fvals (ftab (N := IEEE L) (findex f) (fcols f) (fun j k => fcell f k j)))); [exact (f_equal (fun z : frame (N := IEEE L) time => map (map (fun x : b64 => Fin (fval x))) (fvals (N := IEEE L) z)) E)|].
  cbn [ftab fvals]. unfold tabl. rewrite map_map. apply map_ext. intros k. unfold trow. rewrite map_map. reflexivity.
Qed.

Section ExactRun.
  Context (L : libm) (P : params (N := IEEE L)) (f : frame (N := IEEE L) time) (hv hc : b64).
  Let p := first_pos (min_periods_vola P).
  Let q := first_pos (min_periods_cov P).
  Let T := length (findex f).
  Let n := length (fcols f).
  Hypothesis Ev : vola_halflife P = Some hv.
  Hypothesis Ec : cov_halflife P = Some hc.
  Hypothesis HHv : 0 < fval hv.
  Hypothesis HHc : 0 < fval hc.
  Hypothesis Em : use_mean P = false.
  Hypothesis Ecl : p_clip_at P = None.
  Hypothesis Hf : valid_returns f.
  Hypothesis HT : (p + q < T)%nat.
  Hypothesis HW : forall j k, (j < n)%nat -> (p <= k < T)%nat -> 0 < ex_vol f (fval hv) j k.
  Hypothesis HG : forall j i, (j < n)%nat -> (q <= i)%nat -> (p + i < T)%nat -> 0 < ex_mom f (fval hv) (fval hc) p i j j.

  (** The same settings without the half-lives of the means (which play no part). *)
  Let P0 : params (N := XR) := mkParams (N := XR) (Some (Fin (fval hv))) (Some (Fin (fval hc))) (min_periods_vola P) (min_periods_cov P) false None None None (nan_to_num P).
  Let x := fun j k => fval (fcell f k j).
  Lemma us0 : usable P0 (fval hv) (fval hc) (fval hv) (fval hc) None.
  Proof. constructor; simpl; auto. Qed.
  Lemma np : (0 < length (fcols f))%nat.
  Proof. destruct Hf as (_ & _ & H). destruct (fcols f); [congruence|simpl; lia]. Qed.
  Lemma dn : NoDup (findex f). Proof. apply (valid_good f Hf). Qed.
  Lemma run0 : iterated_ewma (exact_params P) (exact_frame f) = iterated_ewma P0 (exact_frame f).
  Proof.
    assert (G : good (exact_frame f)) by (rewrite exact_ffin by exact Hf; apply ftab_good; exact dn).
    rewrite (iterated_ewma_eq (exact_params P) _ NaN (Fin (decay (fval hv))) NaN (Fin (decay (fval hc))) eq_refl G).
    2: cbn; congruence. 2: cbn; rewrite Ev; apply beta_of_fin; exact HHv. 2: cbn; congruence. 2: cbn; rewrite Ec; apply beta_of_fin; exact HHc.
    rewrite (iterated_ewma_eq P0 _ NaN (Fin (decay (fval hv))) NaN (Fin (decay (fval hc))) eq_refl G).
    2: cbn; congruence. 2: cbn; apply beta_of_fin; exact HHv. 2: cbn; congruence. 2: cbn; apply beta_of_fin; exact HHc.
    unfold adj_tot, it_tot, retmean_tot, adjmean_tot, adj_tot, adj0_tot, volaf_tot, ret_tot, adjusted, prep, item. unfold exact_params. cbn [use_mean p_clip_at nan_to_num min_periods_vola min_periods_cov P0].
    rewrite Em, Ecl. reflexivity.
  Qed.
  Lemma pv0 j k : pv P0 (fval hv) (fval hv) None x j k = ex_vol f (fval hv) j k.
  Proof.
    unfold pv, rvol, py, cen. cbn [use_mean P0 sqo option_map]. rewrite rst_closed by (apply decay_bounds; exact HHv). unfold ex_vol. f_equal.
    apply ewavg_ext. intros s _. unfold x. ring.
  Qed.
  Lemma kp0 : kp P0 (fval hv) (fval hv) None (findex f) (fcols f) x = seq p (T - p).
  Proof.
    change (seq p (T - p)) with (seq (min_periods_vola P - 1) (T - (min_periods_vola P - 1))). rewrite <- late_spec. unfold kp, late. apply filter_ext_in. intros k Hk. apply in_seq in Hk. fold T in Hk. cbn [min_periods_vola P0].
    destruct (Nat.leb_spec (min_periods_vola P) (k + 1)); [|reflexivity]. cbn [andb]. apply existsb_exists. exists 0%nat. split; [apply in_seq; split; [lia|apply np]|].
    unfold dfb. rewrite pv0. destruct (Req_EM_T _ 0) as [E|]; [|reflexivity]. exfalso.
    assert (A := HW 0 k np ltac:(unfold p, first_pos; lia)). lra.
  Qed.
  Lemma kpos0 i : (p + i < T)%nat -> kpos P0 (fval hv) (fval hv) None (findex f) (fcols f) x i = (p + i)%nat.
  Proof. intros Hi. unfold kpos. rewrite kp0. apply seq_nth. lia. Qed.
  Lemma pa0_ j i : (j < n)%nat -> (p + i < T)%nat -> pa P0 (fval hv) (fval hv) (fval hc) None (findex f) (fcols f) x j i = ex_adj f (fval hv) p j i.
  Proof.
    intros Hj Hi. unfold pa, cen, pa0. cbn [use_mean P0]. rewrite kpos0, pv0 by exact Hi. unfold radj. assert (A := HW j (p + i)%nat Hj ltac:(lia)).
    destruct (Req_EM_T _ 0); [lra|]. unfold clipR, py, cen. cbn [use_mean P0]. reflexivity.
  Qed.
  Lemma pc0 i a b : (a < n)%nat -> (b < n)%nat -> (p + i < T)%nat ->
    pc P0 (fval hv) (fval hc) (fval hv) (fval hc) None (findex f) (fcols f) x i a b = ex_mom f (fval hv) (fval hc) p i a b.
  Proof. intros Ha Hb Hi. unfold pc, ex_mom. apply ewavg_ext. intros s Hs. rewrite !pa0_ by (auto; lia). reflexivity. Qed.

  Theorem exact_run : exists outs, iterated_ewma (exact_params P) (exact_frame f) = Ok outs /\ map itime outs = skipn (p + q) (findex f) /\
    forall m o, nth_error outs m = Some o -> forall a b, (a < n)%nat -> (b < n)%nat ->
      nth a (ivol o) NaN = Fin (ex_vol f (fval hv) a (p + (q + m))) /\
      nth b (nth a (fvals (icov o)) []) NaN = Fin (ex_cov f (fval hv) (fval hc) p (q + m) a b).
  Proof.
    rewrite run0, exact_ffin by exact Hf. fold x.
    rewrite (iterated_ewma_ffin P0 (fval hv) (fval hc) (fval hv) (fval hc) None us0 (findex f) (fcols f) x np dn). rewrite kp0.
    assert (NE : isnil (seq p (T - p)) = false) by (destruct (T - p)%nat eqn:E; [lia|reflexivity]). rewrite NE. eexists. split; [reflexivity|].
    rewrite seq_length. rewrite late_spec. change (min_periods_cov P0 - 1)%nat with q. split.
    - rewrite map_map. cbn [pitem itime]. rewrite <- skipn2. rewrite <- (map_tm_skipn (findex f) p). fold T.
      rewrite <- (map_tm_skipn (map (tm (findex f)) (seq p (T - p))) q), map_length, seq_length.
      apply map_ext_in. intros i Hi. apply in_seq in Hi. rewrite kpos0 by lia. unfold tm at 2. rewrite (nth_map_lt _ _ _ 0%nat) by (rewrite seq_length; lia). rewrite seq_nth by lia. reflexivity.
    - intros m o Hm a b Ha Hb. rewrite nth_error_map in Hm. destruct (nth_error (seq q (T - p - q)) m) as [i|] eqn:Eq; [|discriminate Hm].
      assert (Hi : i = (q + m)%nat /\ (p + i < T)%nat).
      { assert (Lk : (m < length (seq q (T - p - q)))%nat) by (apply nth_error_Some; congruence). rewrite seq_length in Lk.
        rewrite (nth_error_nth' _ 0%nat) in Eq by (rewrite seq_length; exact Lk). rewrite seq_nth in Eq by exact Lk. inversion Eq. lia. }
      destruct Hi as [Hi1 Hi2]. rewrite <- Hi1. simpl in Hm. inversion Hm. subst o. clear Hm. unfold pitem. cbn [icov ivol fvals]. split.
      + rewrite (nth_map_lt _ _ _ 0%nat) by (rewrite seq_length; exact Ha). rewrite seq_nth by exact Ha. cbn [plus]. rewrite pv0, kpos0 by exact Hi2. reflexivity.
      + rewrite mtab_nth by assumption. unfold pcov. rewrite !pc0, !pv0, !kpos0 by assumption.
        assert (A := HG a i Ha ltac:(lia) Hi2). assert (C := HG b i Hb ltac:(lia) Hi2).
        destruct (Req_EM_T _ 0); [lra|]. destruct (Req_EM_T _ 0); [lra|]. f_equal. unfold ex_cov, ex_corr. ring.
  Qed.
End ExactRun.

(** The binary64 run and the exact run of the same program, side by side. *)
Theorem frun_exact (L : libm) (P : params (N := IEEE L)) (f : frame (N := IEEE L) time) (hv hc : b64) (M w g : R) :
  let p := first_pos (min_periods_vola P) in let q := first_pos (min_periods_cov P) in
  let n := length (fcols f) in let T := length (findex f) in
  let B := rounding_bound (fval hv) (fval hc) M w g in
  accurate L -> vola_halflife P = Some hv -> cov_halflife P = Some hc -> isnum hv -> isnum hc ->
  / 2 <= fval hv <= bpow radix2 20 -> / 2 <= fval hc <= bpow radix2 20 -> use_mean P = false -> p_clip_at P = None ->
  bpow radix2 (-440) <= M <= bpow radix2 490 -> 0 < w -> 0 < g -> valid_returns f -> numbers f M -> (p + q < T)%nat ->
  (forall j k, (j < n)%nat -> (p <= k < T)%nat -> w <= ex_vol f (fval hv) j k) ->
  (forall j i, (j < n)%nat -> (q <= i)%nat -> (p + i < T)%nat -> g <= ex_mom f (fval hv) (fval hc) p i j j) ->
  B <= / 2 ->
  exists outs exact, iterated_ewma (N := IEEE L) P f = Ok outs /\ iterated_ewma (N := XR) (exact_params P) (exact_frame f) = Ok exact /\
    map itime outs = skipn (p + q) (findex f) /\ map itime exact = skipn (p + q) (findex f) /\
    forall m o e, nth_error outs m = Some o -> nth_error exact m = Some e -> forall a b, (a < n)%nat -> (b < n)%nat ->
      exists s c : R, nth a (ivol e) NaN = Fin s /\ nth b (nth a (fvals (icov e)) []) NaN = Fin c /\ w <= s /\
        isnum (nth a (ivol o) (B754_nan : b64)) /\ Rabs (fval (nth a (ivol o) (B754_nan : b64)) - s) <= B / 16 * s /\
        isnum (fcell (icov o) a b) /\ Rabs (fval (fcell (icov o) a b) - c) <= B * M ^ 2.
Proof.
  intros p q n T B HL Ev Ec Nv Nc HHv HHc Em Ecl HM W0 G0 Hf Hnum HT HW HG HB.
  destruct (fiterated L P f hv hc M w g HL Ev Ec Nv Nc HHv HHc Em Ecl HM W0 G0 Hf Hnum HT HW HG HB) as (outs & H1 & H2 & H3).
  destruct (exact_run L P f hv hc Ev Ec ltac:(lra) ltac:(lra) Em Ecl Hf HT) as (ex & E1 & E2 & E3).
  - intros j k Hj Hk. assert (A := HW j k Hj Hk). lra.
  - intros j i Hj Hi1 Hi2. assert (A := HG j i Hj Hi1 Hi2). unfold p in A. lra.
  - exists outs, ex. split; [exact H1|]. split; [exact E1|]. split; [exact H2|]. split; [exact E2|]. intros m o e Ho He a b Ha Hb.
    assert (Hm : (p + (q + m) < T)%nat).
    { assert (Lm : (m < length outs)%nat) by (apply nth_error_Some; congruence). apply (f_equal (@length _)) in H2. rewrite map_length, skipn_length in H2. unfold p, q, T. lia. }
    destruct (H3 m o Ho) as (_ & _ & H4). destruct (H4 a b Ha Hb) as (F1 & F2 & F3 & F4). destruct (E3 m e He a b Ha Hb) as [X1 X2].
    exists (ex_vol f (fval hv) a (p + (q + m))), (ex_cov f (fval hv) (fval hc) p (q + m) a b). repeat (split; try assumption). apply HW; [exact Ha|lia].
Qed.
