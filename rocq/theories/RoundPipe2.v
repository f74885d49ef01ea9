(** * iterated_ewma, end to end, in binary64: the frames. *)
From Coq Require Import String ZArith Reals Lra Psatz Lia List Bool Arith.
From Flocq Require Import Core BinarySingleNaN.
From Verif Require Import Num Py ListFacts Ewma EwmaTot EwmaPrefix EwmaEquiv EwmaTab Spec SpecEwma EwmaReal EwmaClosed EwmaFin EwmaProps EwmaProps2
  Ieee SpecRound SpecRound2 RoundStep RoundReal RoundRun RoundLip RoundDecay RoundFrame RoundSign RoundVol RoundCov RoundDiag RoundScale RoundPipe.
Import ListNotations.
Local Open Scope R_scope.

Lemma skipn2 {A} (l : list A) p a : skipn p (skipn a l) = skipn (a + p) l.
Proof. revert l; induction a as [|a IH]; intros l; [reflexivity|]. destruct l; [apply skipn_nil|apply IH]. Qed.

Section Frames.
  Context (L : libm) (mp : nat) (idx : list time) (cols : list string).
  Notation N := (IEEE L).
  Hypothesis Hn : (0 < length cols)%nat.
  Hypothesis Hd : NoDup idx.
  Let n := length cols.
  Let T := length idx.
  Lemma fill_num (u : nat -> nat -> b64) i2 : (forall j k, (j < n)%nat -> (k < length i2)%nat -> isnum (u j k)) ->
    ffillna0 (N := N) (ftab (N := N) i2 cols u) = ftab (N := N) i2 cols u.
  Proof.
    intros H. unfold ffillna0. rewrite (@fmap_ftab N). apply (@ftab_ext N). intros j k Hj Hk. change (@nisnan N) with (@is_nan 53 1024).
    rewrite isnum_nan by (apply H; assumption). reflexivity.
  Qed.
  Lemma vola_num b (x : nat -> nat -> b64) : (forall j k, (j < n)%nat -> (k < T)%nat -> isnum (nst (N := N) b mp None (fun s => fmul (x j s) (x j s)) k)) ->
    vola_tot (N := N) b mp None (ftab (N := N) idx cols x) =
    ptab (N := N) idx cols (fun j k => fsqrt (nst (N := N) b mp None (fun s => fmul (x j s) (x j s)) k)) (late mp T).
  Proof.
    intros H. unfold vola_tot. rewrite (@fmap_ftab N). change (sqclip (N := N) None) with (@None b64).
    assert (MN := meanf_num L b mp idx cols Hn (fun j k => fmul (x j k) (x j k)) H).
    etransitivity; [exact (f_equal (fmap (N := N) fsqrt) MN)|].
    unfold fmap, ptab; cbn [findex fcols fvals]. f_equal. rewrite map_map. apply map_ext; intros k. unfold trow. rewrite map_map. reflexivity.
  Qed.
  Lemma align_num (x v : nat -> nat -> b64) :
    (forall j k, (j < n)%nat -> (mp - 1 <= k < T)%nat -> isnum (fdiv (x j k) (v j k))) ->
    fdropna_all (N := N) (falign (N := N) fdiv (ftab (N := N) idx cols x) (ptab (N := N) idx cols v (late mp T))) =
    ftab (N := N) (map (tm idx) (late mp T)) cols (fun j i => fdiv (x j (mp - 1 + i)%nat) (v j (mp - 1 + i)%nat)).
  Proof.
    intros Hx. rewrite (@ftab_ptab N idx). change fdiv with (@ndiv N) at 1. rewrite (@falign_ptab N); auto; [|intros q Hq; apply in_seq in Hq; lia|intros q Hq; eapply late_lt; eauto].
    rewrite (@dropna_ptab N).
    match goal with |- context [filter ?p ?l] => assert (EK : filter p l = late mp T) end.
    { apply filter_ext_in. intros k Hk. apply in_seq in Hk. fold T in Hk. destruct (Nat.leb_spec mp (k + 1)).
      - rewrite alln_num; auto. intros j Hj. rewrite existsb_late by lia. rewrite (proj2 (Nat.leb_le _ _)) by lia. apply Hx; [exact Hj|lia].
      - rewrite alln_fnan; auto. intros j Hj. rewrite existsb_late by lia. destruct (Nat.leb_spec mp (k + 1)); [lia|reflexivity]. }
    rewrite EK, (@ptab_ftab N). apply (@ftab_ext N). intros j i Hj Hi. rewrite map_length in Hi. rewrite late_spec in Hi |- *. rewrite seq_length in Hi. rewrite seq_nth by exact Hi.
    rewrite (proj2 (existsb_eqb_In _ _)); [reflexivity|]. apply in_seq. lia.
  Qed.
  Lemma cov_num b (u : nat -> nat -> b64) i2 : (forall k i j, (k < length i2)%nat -> (i < n)%nat -> (j < n)%nat -> isnum (cst (N := N) b mp u k i j)) ->
    cov_tot (N := N) b mp (ftab (N := N) i2 cols u) =
    map (fun k => (tm i2 k, mkFrame (N := N) cols cols (mtab n (cst (N := N) b mp u k)))) (late mp (length i2)).
  Proof.
    intros Hc. rewrite (@cov_ftab N). fold n.
    match goal with |- context [filter ?p ?l] => assert (EK : filter p l = late mp (length i2)) end.
    { apply filter_ext_in. intros k Hk. apply in_seq in Hk. destruct (Nat.leb_spec mp (k + 1)).
      - rewrite all_nan_mtab_false; auto. unfold msk. destruct (Nat.ltb_spec (k + 1) mp); [lia|]. apply isnum_nan. apply Hc; auto; lia.
      - apply negb_false_iff. unfold all_nan_mat, all_nan, mtab. rewrite forallb_map. apply forallb_forall.
        intros p Hp. rewrite forallb_map. apply forallb_forall. intros q Hq. unfold msk.
        destruct (Nat.ltb_spec (k + 1) mp); [|lia]. change (is_nan (fmul (cst (N := IEEE L) b mp u k p q) B754_nan) = true). rewrite fmul_nan. reflexivity. }
    rewrite EK. apply map_ext_in. intros k Hk. f_equal. f_equal. apply mtab_ext. intros i j Hi Hj. unfold late in Hk. apply filter_In in Hk. destruct Hk as [_ Hk].
    apply Nat.leb_le in Hk. unfold msk. destruct (Nat.ltb_spec (k + 1) mp); [lia|reflexivity].
  Qed.
End Frames.

Section Run.
  Context (L : libm) (P : params (N := IEEE L)) (f : frame (N := IEEE L) time) (hv hc : b64) (M w g : R).
  Notation N := (IEEE L).
  Let p := first_pos (min_periods_vola P).
  Let q := first_pos (min_periods_cov P).
  Let T := length (findex f).
  Let n := length (fcols f).
  Notation B := (rounding_bound (fval hv) (fval hc) M w g).
  Hypothesis HL : accurate L.
  Hypothesis Ev : vola_halflife P = Some hv.
  Hypothesis Ec : cov_halflife P = Some hc.
  Hypothesis Nv : isnum hv.
  Hypothesis Nc : isnum hc.
  Hypothesis HHv : / 2 <= fval hv <= pw 20.
  Hypothesis HHc : / 2 <= fval hc <= pw 20.
  Hypothesis Em : use_mean P = false.
  Hypothesis Ecl : p_clip_at P = None.
  Hypothesis HM : pw (-440) <= M <= pw 490.
  Hypothesis W0 : 0 < w.
  Hypothesis G0 : 0 < g.
  Hypothesis Hf : valid_returns f.
  Hypothesis Hnum : numbers f M.
  Hypothesis HT : (p + q < T)%nat.
  Hypothesis HW : forall j k, (j < n)%nat -> (p <= k < T)%nat -> w <= ex_vol f (fval hv) j k.
  Hypothesis HG : forall j i, (j < n)%nat -> (q <= i)%nat -> (p + i < T)%nat -> g <= ex_mom f (fval hv) (fval hc) p i j j.
  Hypothesis HB : B <= / 2.
  Let x := fun j k => fcell f k j.
  Let mpv := min_periods_vola P.
  Let mpc := min_periods_cov P.
  Let vol j k : b64 := fsqrt (nst (N := N) (fbeta L hv) mpv None (fun s => fmul (x j s) (x j s)) k).
  Let adj j i : b64 := fdiv (x j (p + i)%nat) (vol j (p + i)%nat).

  Lemma n_pos : (0 < n)%nat.
  Proof. destruct Hf as (_ & _ & H). unfold n. destruct (fcols f); [congruence|simpl; lia]. Qed.
  Local Ltac lt := unfold T, p, q, mpv, mpc, first_pos in *; lia.
  Lemma okc j i : (j < n)%nat -> (p + i < T)%nat -> okcol hv M w p (x j) i.
  Proof. intros Hj Hi. split; [intros s Hs; apply Hnum; [unfold T in *; lia|exact Hj]|]. intros s Hs. apply (HW j (p + s)%nat Hj). lia. Qed.
  Lemma rho1 : 1 <= M / w.
  Proof.
    assert (A := HW 0 p n_pos ltac:(lia)). assert (C := sg_le hv hc M w HHv HHc HM p (x 0%nat) 0 (okc 0 0 n_pos ltac:(lia)) 0%nat (le_n 0)).
    rewrite Nat.add_0_r in C. fold (ex_vol f (fval hv) 0 p) in A. assert (WM : w <= M) by (unfold ex_vol in A; unfold x in C; lra).
    apply Rmult_le_reg_r with w; [lra|]. unfold Rdiv. rewrite Rmult_assoc, Rinv_l by lra. lra.
  Qed.
  Lemma g_rho : g <= (M / w) ^ 2.
  Proof.
    eapply Rle_trans; [apply (HG 0 q n_pos (le_n q) HT)|]. unfold ex_mom. eapply Rle_trans; [apply Rle_abs|].
    apply ewavg_abs; [apply decay_bounds; lra|]. intros s Hs. replace ((M / w) ^ 2) with ((M / w) * (M / w)) by ring.
    assert (G : Rabs (ex_adj f (fval hv) p 0 s) <= M / w); [|apply abs_mul_le; exact G].
    unfold ex_adj, Rdiv. assert (V := HW 0 (p + s) n_pos ltac:(lia)). rewrite Rabs_mult, Rabs_inv, (Rabs_right (ex_vol _ _ _ _)) by lra.
    apply Rmult_le_compat; [apply Rabs_pos|left; apply Rinv_0_lt_compat; lra|apply Hnum; [unfold T in *; lia|exact n_pos]|apply Rinv_le_contravar; lra].
  Qed.
  Let ct := consts hv hc M w g HHv HHc G0 HB rho1 g_rho.
  Lemma fcol' j i s : (j < n)%nat -> (p + i < T)%nat -> (s <= i)%nat ->
    isnum (vol j (p + s)%nat) /\ Rabs (fval (vol j (p + s)%nat) - ex_vol f (fval hv) j (p + s)) <= B / 16 * ex_vol f (fval hv) j (p + s) /\ isnum (adj j s).
  Proof.
    intros Hj Hi Hs. destruct (fcol L hv hc M w g HL HHv HHc HM W0 G0 mpv p HB rho1 g_rho (x j) i (okc j i Hj Hi) s Hs) as (A1 & A2 & A3 & _).
    split; [exact A1|]. split; [|exact A3]. eapply Rle_trans; [exact A2|]. apply Rmult_le_compat_r; [apply sqrt_pos|].
    rewrite (B_th hv hc M w g). destruct ct as (C1 & _). lra.
  Qed.
  Lemma cnum k i j : (p + k < T)%nat -> (i < n)%nat -> (j < n)%nat -> isnum (cst (N := N) (fbeta L hc) mpc adj k i j).
  Proof. intros Hk Hi Hj. apply (fmom L hv hc M w g HL HHv HHc HM W0 G0 mpv mpc p HB rho1 g_rho (x i) (x j) k (okc i k Hi Hk) (okc j k Hj Hk)). Qed.

  Lemma fprep : prep (N := N) P f = ftab (N := N) (findex f) (fcols f) x.
  Proof.
    assert (E := fframe L f Hf). unfold prep. destruct (nan_to_num P); [|exact E].
    etransitivity; [exact (f_equal (ffillna0 (N := N)) E)|]. apply fill_num. intros j k Hj Hk. apply Hnum; assumption.
  Qed.
  Lemma fvolaf (b1 : b64) : volaf_tot (N := N) b1 (fbeta L hv) P f = ptab (N := N) (findex f) (fcols f) vol (late mpv T).
  Proof.
    unfold volaf_tot, ret_tot, center_tot. rewrite Em, Ecl. cbn [fst]. rewrite fprep. apply vola_num; [exact n_pos|].
    intros j k Hj Hk. apply (fvar L hv M HL HHv HM mpv (x j) k). intros s Hs. apply Hnum; [unfold T in *; lia|exact Hj].
  Qed.
  Lemma fadjf (b1 b2 : b64) : adj_tot (N := N) b1 (fbeta L hv) b2 P f = ftab (N := N) (map (tm (findex f)) (late mpv T)) (fcols f) adj.
  Proof.
    unfold adj_tot, center_tot, adj0_tot. rewrite fvolaf. unfold adjusted, ret_tot, center_tot. rewrite Em, Ecl. cbn [fst]. rewrite fprep.
    change (clip (N := N) ?z None) with (fdropna_all (N := N) z).
    assert (Hd : NoDup (findex f)) by (apply (valid_good f Hf)).
    assert (AN := align_num L mpv (findex f) (fcols f) n_pos Hd x vol).
    etransitivity; [apply (f_equal (ffillna0 (N := N))); apply AN|].
    - intros j k Hj Hk. assert (E : k = (p + (k - p))%nat) by (unfold p, first_pos; fold mpv; lia). rewrite E. 
      apply (fcol' j (k - p) (k - p) Hj); [|lia]. unfold p, first_pos; fold mpv. unfold T. lia.
    - apply fill_num. intros j k Hj Hk. rewrite map_length, late_spec, seq_length in Hk. apply (fcol' j k k Hj); [|lia]. unfold p, first_pos; fold mpv. lia.
  Qed.

  Theorem fiterated :
    exists outs, iterated_ewma (N := N) P f = Ok outs /\ map itime outs = skipn (p + q) (findex f) /\
      forall m o, nth_error outs m = Some o ->
        findex (icov o) = fcols f /\ fcols (icov o) = fcols f /\
        forall a b, (a < n)%nat -> (b < n)%nat ->
          isnum (nth a (ivol o) (B754_nan : b64)) /\
          Rabs (fval (nth a (ivol o) (B754_nan : b64)) - ex_vol f (fval hv) a (p + (q + m))) <= B / 16 * ex_vol f (fval hv) a (p + (q + m)) /\
          isnum (fcell (icov o) a b) /\
          Rabs (fval (fcell (icov o) a b) - ex_cov f (fval hv) (fval hc) p (q + m) a b) <= B * M ^ 2.
  Proof.
    assert (Hnan : nisnan (Num := N) nnan = true) by reflexivity. assert (Hg := valid_good f Hf). assert (Hd : NoDup (findex f)) by apply Hg.
    rewrite (@iterated_ewma_eq N P f (fbeta L hv) (fbeta L hv) (fbeta L hc) (fbeta L hc) Hnan Hg).
    2: intros E; congruence. 2: rewrite Ev; exact (fbeta_eq L hv Nv (HH36 hv HHv)). 2: intros E; congruence. 2: rewrite Ec; exact (fbeta_eq L hc Nc (HH36 hc HHc)).
    rewrite fadjf. set (i2 := map (tm (findex f)) (late mpv T)).
    assert (Li2 : length i2 = (T - p)%nat) by (unfold i2; rewrite map_length, late_spec, seq_length; lt).
    assert (Ne : isnil (fvals (ftab (N := N) i2 (fcols f) adj)) = false).
    { cbn [ftab fvals]. unfold tabl. rewrite isnil_map. rewrite Li2. destruct (T - p)%nat eqn:E; [lia|reflexivity]. }
    rewrite Ne. eexists. split; [reflexivity|]. unfold it_tot. rewrite fadjf. fold i2.
    assert (CN := cov_num L mpc (findex f) (fcols f) n_pos (fbeta L hc) adj i2). fold n in CN. unfold mpc in CN. rewrite CN; clear CN.
    2: { intros k i j Hk Hi Hj. apply cnum; auto. lia. }
    fold mpc. assert (Ti : forall i, (i < T - p)%nat -> tm i2 i = tm (findex f) (p + i)%nat).
    { intros i Hi. unfold tm at 1. unfold i2. rewrite (nth_map_lt _ _ _ 0%nat) by (rewrite late_spec, seq_length; lt). rewrite late_spec, seq_nth by lt. reflexivity. }
    rewrite map_map. rewrite late_spec, Li2. split.
    - rewrite map_map. cbn [item itime fst]. replace (skipn (p + q) (findex f)) with (skipn q i2).
      + rewrite <- (map_tm_skipn i2 q), Li2. reflexivity.
      + assert (E : i2 = skipn p (findex f)) by (unfold i2; rewrite late_spec; apply (map_tm_skipn (findex f) p)). rewrite E. apply skipn2.
    - intros m o Hm. rewrite !nth_error_map in Hm. match type of Hm with context [nth_error (seq ?a ?b) m] => change a with q in Hm; change b with (T - p - q)%nat in Hm end.
      destruct (nth_error (seq q (T - p - q)) m) as [i|] eqn:Eq; [|simpl in Hm; discriminate Hm].
      assert (Hi : i = (q + m)%nat /\ (p + i < T)%nat).
      { assert (Lk : (m < length (seq q (T - p - q)))%nat) by (apply nth_error_Some; congruence). rewrite seq_length in Lk.
        rewrite (nth_error_nth' _ 0%nat) in Eq by (rewrite seq_length; exact Lk). rewrite seq_nth in Eq by exact Lk. inversion Eq. lt. }
      destruct Hi as [Hi1 Hi2]. rewrite <- Hi1. simpl in Hm. inversion Hm. subst o. clear Hm.
      assert (EV : loc0 (volaf_tot (N := N) (fbeta L hv) (fbeta L hv) P f) (tm i2 i) = trow n vol (p + i)).
      { rewrite Ti by lia. rewrite fvolaf. unfold loc0. rewrite (@floc_ptab N); auto.
        - rewrite existsb_late by (fold T; lia). rewrite (proj2 (Nat.leb_le _ _)) by lt. reflexivity.
        - intros r Hr; eapply late_lt; eauto. }
      unfold item. cbn [fst snd icov ivol]. rewrite EV.
      assert (Lv : length (trow n vol (p + i)) = n) by (unfold trow; rewrite map_length, seq_length; reflexivity).
      split; [reflexivity|]. split; [reflexivity|]. intros a b Ha Hb.
      assert (NT : forall c d, (c < n)%nat -> nth c (trow n vol (p + i)) d = vol c (p + i)%nat).
      { intros c d Hc. unfold trow. rewrite (nth_map_lt _ _ _ 0%nat) by (rewrite seq_length; exact Hc). rewrite seq_nth by exact Hc. reflexivity. }
      rewrite NT by exact Ha. destruct (fcol' a i i Ha Hi2 (le_n i)) as (A1 & A2 & _). split; [exact A1|]. split; [exact A2|].
      unfold fcell. assert (SC := @scale_cov_mtab N (trow n vol (p + i)) (fcols f) (fcols f) n (cst (N := N) (fbeta L hc) mpc adj i) Lv).
      fold n. 
      match goal with |- isnum ?z /\ _ => assert (FE : z = fmul (fmul (vol a (p + i)%nat) (fmul (fmul (finv (cst (N := N) (fbeta L hc) mpc adj i a a)) (cst (N := N) (fbeta L hc) mpc adj i a b)) (finv (cst (N := N) (fbeta L hc) mpc adj i b b)))) (vol b (p + i)%nat)) end.
      { etransitivity; [exact (f_equal (fun z => nth b (nth a z []) (B754_nan : b64)) SC)|]. cbv beta.
        etransitivity; [exact (mtab_nth n _ a b [] (B754_nan : b64) Ha Hb)|]. cbv beta.
        assert (NA := NT a (@n0 N) Ha). assert (NB := NT b (@n0 N) Hb). etransitivity; [|exact (f_equal2 (fun u v => fmul (fmul u (fmul (fmul (finv (cst (N := N) (fbeta L hc) mpc adj i a a)) (cst (N := N) (fbeta L hc) mpc adj i a b)) (finv (cst (N := N) (fbeta L hc) mpc adj i b b)))) v) NA NB)]. reflexivity. }
      rewrite FE.
      apply (fpipe L hv hc M w g HL HHv HHc HM W0 G0 mpv mpc p HB rho1 g_rho (x a) (x b) i (okc a i Ha Hi2) (okc b i Hb Hi2)).
      + apply (HG a i Ha); lia.
      + apply (HG b i Hb); lia.
  Qed.
End Run.
