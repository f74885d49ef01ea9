(** * Volatility in binary64. *)
From Coq Require Import String ZArith Reals Lra Psatz Lia List Bool Arith.
From Flocq Require Import Core BinarySingleNaN.
From Verif Require Import Num Py ListFacts Ewma EwmaTot EwmaPrefix EwmaEquiv EwmaTab Spec SpecEwma EwmaReal EwmaFin EwmaProps EwmaProps2
  Ieee SpecRound RoundStep RoundReal RoundRun RoundLip RoundDecay RoundFrame RoundSign.
Import ListNotations.
Local Open Scope R_scope.

Lemma fsqrt_val (x : b64) : isnum x -> 0 <= fval x -> isnum (fsqrt x) /\ fval (fsqrt x) = rd (sqrt (fval x)).
Proof.
  intros Hx H0. destruct (Bsqrt_correct 53 1024 _ _ mode_NE x) as (A & B & _). split; [|exact A].
  unfold isnum, fsqrt. rewrite B. destruct x as [s|s| |s m e]; try reflexivity; try discriminate Hx. destruct s; [|reflexivity].
  exfalso. unfold fval in H0. simpl in H0. apply (Rle_not_lt _ _ H0). apply F2R_lt_0. reflexivity.
Qed.

Section Vol.
  Context (L : libm) (h : b64) (M : R).
  Hypothesis HL : accurate L.
  Hypothesis HH : / 2 <= fval h <= pw 20.
  Hypothesis HM : pw (-440) <= M <= pw 490.
  Let d := decay (fval h).
  Let b := fbeta L h.
  Let M2 := M * M * (1 + 2 * uu).

  Lemma HH36 : / 2 <= fval h <= pw 36.
  Proof. split; [apply HH|]. eapply Rle_trans; [apply HH|]. apply bpow_le. lia. Qed.
  Lemma d24 : 2 * pw (-24) <= 1 - d.
  Proof.
    pose proof ln2_bounds as LB. unfold d, decay, Rpower. set (H := fval h) in *.
    assert (P : 0 < pw 20) by apply bpow_gt_0.
    assert (Hi : 0 < / H <= 2). { split; [apply Rinv_0_lt_compat; lra|]. replace 2 with (/ (/ 2)) by lra. apply Rinv_le_contravar; lra. }
    assert (Hi2 : pw (-20) <= / H). { change (-20)%Z with (- (20))%Z. rewrite bpow_opp. apply Rinv_le_contravar; lra. }
    assert (P2 : 0 < pw (-20)) by apply bpow_gt_0.
    set (t := / H * ln 2). replace (- / H * ln 2) with (- t) by (unfold t; ring).
    assert (T1 : pw (-21) <= t).
    { unfold t. replace (pw (-21)) with (pw (-20) * / 2) by (change (/ 2) with (pw (-1)); rewrite <- bpow_plus; reflexivity). apply Rmult_le_compat; lra. }
    assert (T2 : t <= 2 * ln 2) by (unfold t; apply Rmult_le_compat_r; lra).
    assert (E : exp (- t) * exp t = 1) by (rewrite <- exp_plus, Rplus_opp_l; apply exp_0).
    assert (X := exp_pos (- t)). assert (X1 := exp_pos t). assert (P3 : 0 < pw (-21)) by apply bpow_gt_0.
    assert (E1 : 1 + t < exp t) by (apply exp_ineq1; lra).
    assert (E2 : exp t <= 4).
    { replace 4 with (exp (2 * ln 2)). - destruct T2 as [T2|T2]; [apply Rlt_le, exp_increasing; exact T2|rewrite T2; lra].
      - replace (2 * ln 2) with (ln 2 + ln 2) by ring. rewrite exp_plus, exp_ln by lra. lra. }
    assert (P4 : 2 * pw (-24) = pw (-21) * / 4) by (change 2 with (pw 1); change (/ 4) with (pw (-2)); rewrite <- !bpow_plus; reflexivity).
    rewrite P4. nra.
  Qed.
  Lemma b24 : / 8 <= fval b /\ pw (-24) <= 1 - fval b.
  Proof.
    destruct (beta_close L h HL HH36) as [_ E]. fold b in E. destruct (decay_bounds2 h HH36) as (D1 & _ & D3). pose proof d24 as D. fold d in E, D1.
    unfold b, fbeta in E. set (bb := fval b). change (Rabs (bb - d) <= 8 * uu) in E. rewrite u8 in E.
    assert (G := Rle_abs (bb - d)). assert (G2 := Rle_abs (- (bb - d))). rewrite Rabs_Ropp in G2.
    assert (P1 : pw (-50) <= pw (-24)) by (apply bpow_le; lia). assert (P2 : pw (-24) <= / 8) by (change (/ 8) with (pw (-3)); apply bpow_le; lia).
    split; lra.
  Qed.
  Lemma M2_range : pw (-900) <= M2 <= pw 1000.
  Proof.
    unfold M2. pose proof uu_pos. destruct uu_tiny as [U1 _]. assert (P : 0 < pw (-440)) by apply bpow_gt_0. assert (P2 : 0 < pw 490) by apply bpow_gt_0.
    assert (A : pw (-440) * pw (-440) <= M * M) by nra. assert (B : M * M <= pw 490 * pw 490) by nra.
    rewrite <- bpow_plus in A, B. assert (C : pw (-900) <= pw (-440 + -440)) by (apply bpow_le; lia).
    assert (D : 2 * pw (490 + 490) <= pw 1000) by (change 2 with (pw 1); rewrite <- bpow_plus; apply bpow_le; lia).
    assert (0 < M * M) by nra. split; nra.
  Qed.

  Lemma fnonneg mp (y : nat -> b64) k : (forall s, (s <= k)%nat -> isnum (y s) /\ Rabs (fval (y s)) <= M2 /\ 0 <= fval (y s)) ->
    0 <= fval (nst (N := IEEE L) b mp None y k).
  Proof.
    destruct (fbeta_ok L h HL HH36) as (Nb & B0 & B1 & _). fold b in Nb, B0, B1. destruct b24 as [B8 B24].
    assert (Hp : pow_accurate L b) by (apply HL; [exact Nb|]; pose proof (bpow_gt_0 radix2 (-24)); lra).
    induction k as [|k IH]; intros Hy; [apply (Hy 0%nat); lia|].
    assert (Hy' : forall s, (s <= k)%nat -> isnum (y s) /\ Rabs (fval (y s)) <= M2) by (intros s Hs; destruct (Hy s) as (Q1 & Q2 & _); [lia|]; auto).
    destruct (frun L b M2 Nb B0 B1 Hp M2_range mp y k Hy') as (R1 & _ & _ & R4).
    destruct (Hy (S k) (le_n _)) as (Y1 & Y2 & Y3). assert (IH' := IH ltac:(intros; apply Hy; lia)).
    change (nst (N := IEEE L) b mp None y (S k)) with (upd (N := IEEE L) b mp None (S k) (nst (N := IEEE L) b mp None y k) (y (S k))).
    destruct (fstep_full L b M2 Nb B0 B1 Hp M2_range mp (S k) _ _ R1 Y1 Y2 R4) as (_ & V & _). rewrite V.
    destruct (Hp (S (S k))) as [_ Ap]. apply sign_step with (bm := fval b ^ S (S k)); auto.
    - assert (B2 : fval b <= 1) by (pose proof (bpow_gt_0 radix2 (-24)); lra). split; [apply pow_le; lra|]. simpl.
      assert (0 <= fval b ^ k <= 1) by (split; [apply pow_le; lra|rewrite <- (pow1 k); apply pow_incr; lra]). nra.
    - eapply Rle_trans; [exact Ap|]. unfold uu. rewrite (pw_split 1 (-53) (-52)) by lia. apply Rle_refl.
    - apply rd_val.
  Qed.

  (** One column. *)
  Lemma fvar mp (x : nat -> b64) k : (forall s, (s <= k)%nat -> isnum (x s) /\ Rabs (fval (x s)) <= M) ->
    let v := nst (N := IEEE L) b mp None (fun s => fmul (x s) (x s)) k in
    isnum v /\ 0 <= fval v <= 3 * (M * M) /\ Rabs (fval v - ewavg d (fun s => fval (x s) ^ 2) k) <= 84 * uu * (M * M) / (1 - d).
  Proof.
    intros Hx v. pose proof uu_pos as U0. destruct uu_tiny as [U1 _]. destruct (decay_bounds2 h HH36) as (D1 & D2 & D3). fold d in D1, D2, D3.
    assert (P440 : 0 < pw (-440)) by apply bpow_gt_0. assert (MM : 0 < M * M) by nra. assert (P40 : 0 < pw (-40)) by apply bpow_gt_0.
    assert (hM : hh <= uu * (M * M)).
    { apply Rle_trans with (uu * (pw (-440) * pw (-440))); [unfold uu, hh; rewrite <- !bpow_plus; apply bpow_le; lia|]. apply Rmult_le_compat_l; [lra|]. nra. }
    assert (Hsq : forall s, (s <= k)%nat -> isnum (fmul (x s) (x s)) /\ Rabs (fval (fmul (x s) (x s))) <= M2 /\ 0 <= fval (fmul (x s) (x s)) /\
      Rabs (fval (fmul (x s) (x s)) - fval (x s) ^ 2) <= 2 * uu * (M * M)).
    { intros s Hs. destruct (Hx s Hs) as [Nx Bx]. assert (S0 : 0 <= fval (x s) * fval (x s)) by nra.
      assert (Sq : fval (x s) * fval (x s) <= M * M) by (rewrite <- (Rabs_right (fval (x s) * fval (x s))) by lra; apply abs_mul_le; assumption).
      destruct (fmul_val (x s) (x s) Nx Nx) as [N1 V1].
      { rewrite Rabs_right by lra. eapply Rle_trans; [exact Sq|]. apply Rle_trans with (pw 490 * pw 490); [nra|]. rewrite <- bpow_plus. apply bpow_le. lia. }
      split; [exact N1|]. assert (Er := rd_err (fval (x s) * fval (x s))). rewrite <- V1 in Er. rewrite (Rabs_right (fval (x s) * fval (x s))) in Er by lra.
      assert (Er2 : Rabs (fval (fmul (x s) (x s)) - fval (x s) * fval (x s)) <= 2 * uu * (M * M)) by nra.
      assert (P0 : 0 <= fval (fmul (x s) (x s))) by (rewrite V1, <- rd_0; apply rd_le; exact S0).
      split; [|split; [exact P0|]].
      - rewrite Rabs_right by lra. assert (G := Rle_abs (fval (fmul (x s) (x s)) - fval (x s) * fval (x s))). unfold M2. lra.
      - replace (fval (x s) ^ 2) with (fval (x s) * fval (x s)) by ring. exact Er2. }
    assert (H1 : forall s, (s <= k)%nat -> isnum (fmul (x s) (x s)) /\ Rabs (fval (fmul (x s) (x s))) <= M2) by (intros s Hs; destruct (Hsq s Hs) as (Q1 & Q2 & _); auto).
    destruct (fmean L h M2 HL HH36 M2_range mp (fun s => fmul (x s) (x s)) k H1) as (R1 & R2 & R3). fold b in R1, R2, R3. fold v in R1, R2, R3. fold d in R2.
    split; [exact R1|]. assert (V0 : 0 <= fval v).
    { apply fnonneg. intros s Hs. destruct (Hsq s Hs) as (Q1 & Q2 & Q3 & _). auto. }
    split; [split; [exact V0|]|].
    - rewrite Rabs_right in R3 by lra. unfold M2 in R3. nra.
    - assert (DD : Rabs (ewavg d (fun s => fval (fmul (x s) (x s))) k - ewavg d (fun s => fval (x s) ^ 2) k) <= 2 * uu * (M * M)).
      { apply ewavg_dist; [lra|]. intros s Hs. apply Hsq. exact Hs. }
      replace (fval v - ewavg d (fun s => fval (x s) ^ 2) k) with
        ((fval v - ewavg d (fun s => fval (fmul (x s) (x s))) k) + (ewavg d (fun s => fval (fmul (x s) (x s))) k - ewavg d (fun s => fval (x s) ^ 2) k)) by ring.
      eapply Rle_trans; [apply (abs_plus _ _ _ _ R2 DD)|].
      set (K := uu * (M * M) / (1 - d)). assert (K0 : uu * (M * M) <= K).
      { unfold K, Rdiv. rewrite <- (Rmult_1_r (uu * (M * M))) at 1. apply Rmult_le_compat_l; [nra|]. rewrite <- Rinv_1. apply Rinv_le_contravar; lra. }
      replace (80 * uu * M2 / (1 - d)) with (80 * (1 + 2 * uu) * K) by (unfold K, M2; field; lra).
      replace (84 * uu * (M * M) / (1 - d)) with (84 * K) by (unfold K; field; lra).
      assert (KP : 0 < K) by (assert (0 < uu * (M * M)) by (apply Rmult_lt_0_compat; lra); lra).
      assert (UK : uu * K <= / 1024 * K) by (apply Rmult_le_compat_r; lra).
      replace (80 * (1 + 2 * uu) * K) with (80 * K + 160 * (uu * K)) by ring. lra.
  Qed.
  Lemma fvola mp (x : nat -> b64) k : (forall s, (s <= k)%nat -> isnum (x s) /\ Rabs (fval (x s)) <= M) ->
    let v := fsqrt (nst (N := IEEE L) b mp None (fun s => fmul (x s) (x s)) k) in
    isnum v /\ 0 <= fval v /\ Rabs (fval v ^ 2 - ewavg d (fun s => fval (x s) ^ 2) k) <= pw (-46) * M ^ 2 / (1 - d).
  Proof.
    intros Hx v. destruct (fvar mp x k Hx) as (N1 & V1 & E1). set (e := nst (N := IEEE L) b mp None (fun s => fmul (x s) (x s)) k) in *.
    destruct (fsqrt_val e N1 (proj1 V1)) as [N2 V2]. fold v in N2, V2. split; [exact N2|].
    set (s := sqrt (fval e)) in *. assert (S0 : 0 <= s) by apply sqrt_pos. assert (SS : s * s = fval e) by (apply sqrt_sqrt; apply V1).
    assert (Vn : 0 <= fval v) by (rewrite V2, <- rd_0; apply rd_le; exact S0). split; [exact Vn|].
    pose proof uu_pos as U0. destruct uu_tiny as [U1 _]. destruct (decay_bounds2 h HH36) as (D1 & D2 & D3). fold d in D1, D2, D3.
    assert (P440 : 0 < pw (-440)) by apply bpow_gt_0. assert (MM : 0 < M * M) by nra. assert (P40 : 0 < pw (-40)) by apply bpow_gt_0.
    assert (hM : hh <= uu * M).
    { apply Rle_trans with (uu * pw (-440)); [unfold uu, hh; rewrite <- !bpow_plus; apply bpow_le; lia|]. apply Rmult_le_compat_l; lra. }
    assert (Sl : s <= 2 * M) by (apply Rsqr_incr_0; unfold Rsqr; nra).
    assert (Er := rd_err s). rewrite <- V2 in Er. rewrite (Rabs_right s) in Er by lra.
    assert (Er2 : Rabs (fval v - s) <= 3 * (uu * M)) by nra.
    assert (Vl : Rabs (fval v + s) <= 5 * M). { rewrite Rabs_right by lra. assert (G := Rle_abs (fval v - s)). nra. }
    assert (E2 : Rabs (fval v ^ 2 - fval e) <= 15 * (uu * (M * M))).
    { replace (fval v ^ 2 - fval e) with ((fval v - s) * (fval v + s)) by (rewrite <- SS; ring). replace (15 * (uu * (M * M))) with (3 * (uu * M) * (5 * M)) by ring. apply abs_mul_le; assumption. }
    replace (fval v ^ 2 - ewavg d (fun s => fval (x s) ^ 2) k) with ((fval v ^ 2 - fval e) + (fval e - ewavg d (fun s => fval (x s) ^ 2) k)) by ring.
    eapply Rle_trans; [apply (abs_plus _ _ _ _ E2 E1)|].
    set (K := uu * (M * M) / (1 - d)). assert (K0 : uu * (M * M) <= K).
    { unfold K, Rdiv. rewrite <- (Rmult_1_r (uu * (M * M))) at 1. apply Rmult_le_compat_l; [nra|]. rewrite <- Rinv_1. apply Rinv_le_contravar; lra. }
    assert (P46 : pw (-46) = 128 * uu) by (unfold uu; change 128 with (pw 7); rewrite <- bpow_plus; reflexivity).
    replace (pw (-46) * M ^ 2 / (1 - d)) with (128 * K) by (rewrite P46; unfold K; field; lra).
    replace (84 * uu * (M * M) / (1 - d)) with (84 * K) by (unfold K; field; lra). assert (0 < uu * (M * M)) by nra. lra.
  Qed.
End Vol.

Theorem fvolatility L f h mp M : accurate L -> isnum h -> / 2 <= fval h <= pw 20 -> pw (-440) <= M <= pw 490 ->
  valid_returns f -> fvals f <> [] -> numbers f M ->
  exists v, volatility (N := IEEE L) f (Some h) mp None = Ok v /\ fcols v = fcols f /\
    findex v = skipn (first_pos mp) (findex f) /\
    forall k j, (first_pos mp <= k < length (findex f))%nat -> (j < length (fcols f))%nat ->
      isnum (fcell v (k - first_pos mp) j) /\ 0 <= fval (fcell v (k - first_pos mp) j) /\
      Rabs (fval (fcell v (k - first_pos mp) j) ^ 2 - ewavg (decay (fval h)) (fun s => fval (fcell f s j) ^ 2) k) <= pw (-46) * M ^ 2 / (1 - decay (fval h)).
Proof.
  intros HL Hh HH HM Hf Hne Hnum.
  assert (Hn : (0 < length (fcols f))%nat) by (destruct Hf as (_ & _ & H); destruct (fcols f); [congruence|simpl; lia]).
  assert (Hd : NoDup (findex f)) by (apply (valid_good f Hf)).
  set (x := fun j k => fcell f k j).
  assert (HH36 := HH36 h HH).
  assert (Hnst : forall j k, (j < length (fcols f))%nat -> (k < length (findex f))%nat -> isnum (nst (N := IEEE L) (fbeta L h) mp None (fun s => fmul (x j s) (x j s)) k)).
  { intros j k Hj Hk. apply (fvar L h M HL HH HM mp (x j) k). intros s Hs. apply Hnum; lia. }
  rewrite (@volatility_eq (IEEE L) f (Some h) mp None (fbeta L h) (valid_good f Hf) (fbeta_eq L h Hh HH36)).
  destruct (fvals f) eqn:E; [congruence|]. cbn [isnil]. clear E.
  assert (EV : vola_tot (N := IEEE L) (fbeta L h) mp None f =
    ptab (N := IEEE L) (findex f) (fcols f) (fun j k => fsqrt (nst (N := IEEE L) (fbeta L h) mp None (fun s => fmul (x j s) (x j s)) k)) (late mp (length (findex f)))).
  { unfold vola_tot. rewrite (fframe L f Hf) at 1. rewrite (@fmap_ftab (IEEE L)).
    change (sqclip (N := IEEE L) None) with (@None b64). assert (MN := meanf_num L (fbeta L h) mp (findex f) (fcols f) Hn (fun j k => fmul (x j k) (x j k)) Hnst).
    etransitivity; [exact (f_equal (fmap (N := IEEE L) fsqrt) MN)|].
    unfold fmap, ptab; cbn [findex fcols fvals]. f_equal. rewrite map_map. apply map_ext; intros k. unfold trow. rewrite map_map. reflexivity. }
  rewrite EV. eexists. split; [reflexivity|]. rewrite late_spec. cbn [ptab findex fcols]. unfold first_pos.
  split; [reflexivity|]. split; [apply map_tm_skipn|]. intros k j Hk Hj.
  rewrite !fcell_ptab by (auto; lia). apply (fvola L h M HL HH HM mp (x j) k). intros s Hs. apply Hnum; lia.
Qed.

Lemma sqrt_dist a w t : 0 <= a -> 0 <= w -> 0 <= t -> Rabs (a ^ 2 - w) <= t ^ 2 -> Rabs (a - sqrt w) <= t.
Proof.
  intros Ha Hw Ht H. set (s := sqrt w). assert (S0 : 0 <= s) by apply sqrt_pos. assert (SS : s * s = w) by (apply sqrt_sqrt; exact Hw).
  assert (P := Rabs_pos (a - s)).
  assert (E : Rabs (a - s) * Rabs (a - s) <= Rabs (a ^ 2 - w)).
  { replace (a ^ 2 - w) with ((a - s) * (a + s)) by (rewrite <- SS; ring). rewrite Rabs_mult. apply Rmult_le_compat_l; [exact P|].
    rewrite (Rabs_right (a + s)) by lra. apply Rabs_le. lra. }
  destruct (Rle_dec (Rabs (a - s)) t) as [G|G]; [exact G|]. exfalso. assert (t * t < Rabs (a - s) * Rabs (a - s)) by nra. nra.
Qed.
Theorem fvolatility2 L f h mp M : accurate L -> isnum h -> / 2 <= fval h <= pw 20 -> pw (-440) <= M <= pw 490 ->
  valid_returns f -> fvals f <> [] -> numbers f M ->
  exists v, volatility (N := IEEE L) f (Some h) mp None = Ok v /\ fcols v = fcols f /\
    findex v = skipn (first_pos mp) (findex f) /\
    forall k j, (first_pos mp <= k < length (findex f))%nat -> (j < length (fcols f))%nat ->
      let W := ewavg (decay (fval h)) (fun s => fval (fcell f s j) ^ 2) k in
      let s := fcell v (k - first_pos mp) j in
      isnum s /\ 0 <= fval s /\
      Rabs (fval s ^ 2 - W) <= pw (-46) * M ^ 2 / (1 - decay (fval h)) /\
      Rabs (fval s - sqrt W) <= pw (-23) * M / sqrt (1 - decay (fval h)).
Proof.
  intros HL Hh HH HM Hf Hne Hnum. destruct (fvolatility L f h mp M HL Hh HH HM Hf Hne Hnum) as (v & H1 & H2 & H3 & H4).
  exists v. split; [exact H1|]. split; [exact H2|]. split; [exact H3|]. intros k j Hk Hj W s. destruct (H4 k j Hk Hj) as (N1 & P1 & E1).
  split; [exact N1|]. split; [exact P1|]. split; [exact E1|].
  destruct (decay_bounds2 h (HH36 h HH)) as (D1 & D2 & D3). assert (P40 : 0 < pw (-40)) by apply bpow_gt_0.
  assert (P440 : 0 < pw (-440)) by apply bpow_gt_0. assert (P23 : 0 < pw (-23)) by apply bpow_gt_0.
  assert (SQ : 0 < sqrt (1 - decay (fval h))) by (apply sqrt_lt_R0; lra).
  apply sqrt_dist; [exact P1| | |].
  - unfold W. assert (B := decay_bounds (fval h) ltac:(lra)).
    rewrite (ewavg_weights _). assert (G : forall n, 0 <= rsum n (fun s0 => eweight (decay (fval h)) k s0 * fval (fcell f s0 j) ^ 2)); [|apply G].
    induction n; simpl; [lra|]. apply Rplus_le_le_0_compat; [exact IHn|]. apply Rmult_le_pos; [|nra].
    unfold eweight. apply Rmult_le_pos; [apply pow_le; lra|]. left. apply Rinv_0_lt_compat. apply etot_pos. exact B.
  - apply Rlt_le, Rdiv_lt_0_compat; [nra|exact SQ].
  - eapply Rle_trans; [exact E1|]. apply Req_le. assert (E2 : sqrt (1 - decay (fval h)) * sqrt (1 - decay (fval h)) = 1 - decay (fval h)) by (apply sqrt_sqrt; lra).
    rewrite <- E2 at 1. rewrite (pw_split (-23) (-23) (-46)) by lia. field. lra.
Qed.
