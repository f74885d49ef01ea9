(** * The EWMA of outer products in binary64. *)
From Coq Require Import String ZArith Reals Lra Psatz Lia List Bool Arith.
From Flocq Require Import Core BinarySingleNaN.
From Verif Require Import Num Py ListFacts Ewma EwmaTot EwmaPrefix EwmaEquiv EwmaTab Spec SpecEwma EwmaReal EwmaFin EwmaProps EwmaProps2
  Ieee SpecRound RoundStep RoundReal RoundRun RoundLip RoundDecay RoundFrame RoundSign RoundVol.
Import ListNotations.
Local Open Scope R_scope.

Lemma fmul_comm x y : fmul x y = fmul y x.
Proof.
  destruct x as [sx|sx| |sx mx ex Hx], y as [sy|sy| |sy my ey Hy]; try reflexivity; unfold fmul, Bmult;
    try (rewrite xorb_comm; reflexivity).
  apply B2SF_inj. rewrite !B2SF_SF2B. rewrite (xorb_comm sx sy), (Pos.mul_comm mx my), (Z.add_comm ex ey). reflexivity.
Qed.

Section Cov.
  Context (L : libm) (h : b64) (M : R).
  Hypothesis HL : accurate L.
  Hypothesis HH : / 2 <= fval h <= pw 20.
  Hypothesis HM : pw (-440) <= M <= pw 490.
  Let d := decay (fval h).
  Let b := fbeta L h.
  Let M2 := M * M * (1 + 2 * uu).

  Lemma fcov mp (x y : nat -> b64) k :
    (forall s, (s <= k)%nat -> isnum (x s) /\ Rabs (fval (x s)) <= M) -> (forall s, (s <= k)%nat -> isnum (y s) /\ Rabs (fval (y s)) <= M) ->
    let v := nst (N := IEEE L) b mp None (fun s => fmul (x s) (y s)) k in
    isnum v /\ Rabs (fval v - ewavg d (fun s => fval (x s) * fval (y s)) k) <= pw (-46) * M ^ 2 / (1 - d).
  Proof.
    intros Hx Hy v. pose proof uu_pos as U0. destruct uu_tiny as [U1 _]. destruct (decay_bounds2 h (HH36 h HH)) as (D1 & D2 & D3). fold d in D1, D2, D3.
    assert (P440 : 0 < pw (-440)) by apply bpow_gt_0. assert (MM : 0 < M * M) by nra. assert (P40 : 0 < pw (-40)) by apply bpow_gt_0.
    assert (hM : hh <= uu * (M * M)).
    { apply Rle_trans with (uu * (pw (-440) * pw (-440))); [unfold uu, hh; rewrite <- !bpow_plus; apply bpow_le; lia|]. apply Rmult_le_compat_l; [lra|]. nra. }
    assert (Hsq : forall s, (s <= k)%nat -> isnum (fmul (x s) (y s)) /\ Rabs (fval (fmul (x s) (y s))) <= M2 /\
      Rabs (fval (fmul (x s) (y s)) - fval (x s) * fval (y s)) <= 2 * uu * (M * M)).
    { intros s Hs. destruct (Hx s Hs) as [Nx Bx]. destruct (Hy s Hs) as [Ny By].
      assert (Sq : Rabs (fval (x s) * fval (y s)) <= M * M) by (apply abs_mul_le; assumption).
      destruct (fmul_val (x s) (y s) Nx Ny) as [N1 V1].
      { eapply Rle_trans; [exact Sq|]. apply Rle_trans with (pw 490 * pw 490); [nra|]. rewrite <- bpow_plus. apply bpow_le. lia. }
      split; [exact N1|]. assert (Er := rd_err (fval (x s) * fval (y s))). rewrite <- V1 in Er.
      assert (Er2 : Rabs (fval (fmul (x s) (y s)) - fval (x s) * fval (y s)) <= 2 * uu * (M * M)).
      { assert (uu * Rabs (fval (x s) * fval (y s)) <= uu * (M * M)) by (apply Rmult_le_compat_l; lra). lra. }
      split; [|exact Er2]. replace (fval (fmul (x s) (y s))) with ((fval (fmul (x s) (y s)) - fval (x s) * fval (y s)) + fval (x s) * fval (y s)) by ring.
      eapply Rle_trans; [apply (abs_plus _ _ _ _ Er2 Sq)|]. unfold M2. lra. }
    assert (H1 : forall s, (s <= k)%nat -> isnum (fmul (x s) (y s)) /\ Rabs (fval (fmul (x s) (y s))) <= M2) by (intros s Hs; destruct (Hsq s Hs) as (Q1 & Q2 & _); auto).
    destruct (fmean L h M2 HL (HH36 h HH) (M2_range M HM) mp (fun s => fmul (x s) (y s)) k H1) as (R1 & R2 & R3). fold b in R1, R2, R3. fold v in R1, R2, R3. fold d in R2.
    split; [exact R1|].
    assert (DD : Rabs (ewavg d (fun s => fval (fmul (x s) (y s))) k - ewavg d (fun s => fval (x s) * fval (y s)) k) <= 2 * uu * (M * M)).
    { apply ewavg_dist; [lra|]. intros s Hs. apply Hsq. exact Hs. }
    replace (fval v - ewavg d (fun s => fval (x s) * fval (y s)) k) with
      ((fval v - ewavg d (fun s => fval (fmul (x s) (y s))) k) + (ewavg d (fun s => fval (fmul (x s) (y s))) k - ewavg d (fun s => fval (x s) * fval (y s)) k)) by ring.
    eapply Rle_trans; [apply (abs_plus _ _ _ _ R2 DD)|].
    set (K := uu * (M * M) / (1 - d)). assert (K0 : uu * (M * M) <= K).
    { unfold K, Rdiv. rewrite <- (Rmult_1_r (uu * (M * M))) at 1. apply Rmult_le_compat_l; [nra|]. rewrite <- Rinv_1. apply Rinv_le_contravar; lra. }
    replace (80 * uu * M2 / (1 - d)) with (80 * (1 + 2 * uu) * K) by (unfold K, M2; field; lra).
    assert (P46 : pw (-46) = 128 * uu) by (unfold uu; change 128 with (pw 7); rewrite <- bpow_plus; reflexivity).
    replace (pw (-46) * M ^ 2 / (1 - d)) with (128 * K) by (rewrite P46; unfold K; field; lra).
    assert (KP : 0 < K) by (assert (0 < uu * (M * M)) by (apply Rmult_lt_0_compat; lra); lra).
    assert (UK : uu * K <= / 1024 * K) by (apply Rmult_le_compat_r; lra).
    replace (80 * (1 + 2 * uu) * K) with (80 * K + 160 * (uu * K)) by ring. lra.
  Qed.
End Cov.

(** A matrix close, entry by entry, to one with a nonnegative quadratic form. *)
Lemma rsum_abs n f : Rabs (rsum n f) <= rsum n (fun k => Rabs (f k)).
Proof. induction n; simpl; [rewrite Rabs_R0; lra|]. eapply Rle_trans; [apply Rabs_triang|]. lra. Qed.
Lemma quad_close n (c e : nat -> nat -> R) (w : nat -> R) D :
  (forall i j, (i < n)%nat -> (j < n)%nat -> Rabs (c i j - e i j) <= D) -> 0 <= rsum n (fun i => rsum n (fun j => w i * w j * e i j)) ->
  - (D * rsum n (fun i => Rabs (w i)) ^ 2) <= rsum n (fun i => rsum n (fun j => w i * w j * c i j)).
Proof.
  intros H He. set (q := rsum n (fun i => rsum n (fun j => w i * w j * (c i j - e i j)))).
  assert (Eq : rsum n (fun i => rsum n (fun j => w i * w j * c i j)) = rsum n (fun i => rsum n (fun j => w i * w j * e i j)) + q).
  { unfold q. rewrite <- rsum_plus. apply rsum_ext. intros i Hi. rewrite <- rsum_plus. apply rsum_ext. intros j Hj. ring. }
  assert (B : Rabs q <= D * rsum n (fun i => Rabs (w i)) ^ 2).
  { unfold q. eapply Rle_trans; [apply rsum_abs|]. apply Rle_trans with (rsum n (fun i => Rabs (w i) * (D * rsum n (fun j => Rabs (w j))))).
    - apply rsum_le. intros i Hi. eapply Rle_trans; [apply rsum_abs|]. rewrite <- (rsum_scal n D), <- rsum_scal. apply rsum_le. intros j Hj.
      rewrite !Rabs_mult. assert (Pi := Rabs_pos (w i)). assert (Pj := Rabs_pos (w j)). specialize (H i j Hi Hj).
      replace (Rabs (w i) * (D * Rabs (w j))) with (Rabs (w i) * Rabs (w j) * D) by ring. apply Rmult_le_compat_l; [nra|exact H].
    - apply Req_le. set (t := rsum n (fun i => Rabs (w i))). rewrite (rsum_ext n _ (fun i => D * t * Rabs (w i))) by (intros; unfold t; ring). rewrite rsum_scal. fold t. ring. }
  rewrite Eq. assert (G := Rle_abs (- q)). rewrite Rabs_Ropp in G. lra.
Qed.
Lemma quad_ewavg b n (x : nat -> nat -> R) (w : nat -> R) k : 0 < b < 1 ->
  0 <= rsum n (fun i => rsum n (fun j => w i * w j * ewavg b (fun s => x i s * x j s) k)).
Proof.
  intros Hb. assert (E : rsum n (fun i => rsum n (fun j => w i * w j * ewavg b (fun s => x i s * x j s) k)) =
    rsum (S k) (fun s => eweight b k s * rsum n (fun i => rsum n (fun j => (w i * x i s) * (w j * x j s))))).
  { rewrite (rsum_ext n _ (fun i => rsum (S k) (fun s => eweight b k s * rsum n (fun j => (w i * x i s) * (w j * x j s))))).
    - rewrite rsum_swap. apply rsum_ext. intros s Hs. rewrite <- rsum_scal. reflexivity.
    - intros i Hi. rewrite (rsum_ext n _ (fun j => rsum (S k) (fun s => eweight b k s * ((w i * x i s) * (w j * x j s))))).
      + rewrite rsum_swap. apply rsum_ext. intros s Hs. rewrite rsum_scal. reflexivity.
      + intros j Hj. rewrite (ewavg_weights b), <- rsum_scal. apply rsum_ext. intros s Hs. ring. }
  rewrite E. apply rsum_nonneg. intros s Hs. apply Rmult_le_pos; [left; apply eweight_pos; exact Hb|].
  assert (Q : forall n, rsum n (fun i => rsum n (fun j => (w i * x i s) * (w j * x j s))) = rsum n (fun i => w i * x i s) * rsum n (fun i => w i * x i s)).
  { intros m. rewrite (rsum_ext m _ (fun i => rsum m (fun j => w j * x j s) * (w i * x i s))).
    - rewrite rsum_scal. reflexivity.
    - intros i Hi. rewrite rsum_scal. ring. }
  rewrite Q. apply Rle_0_sqr.
Qed.

Theorem fewma_cov L f h mp M : accurate L -> isnum h -> / 2 <= fval h <= pw 20 -> pw (-440) <= M <= pw 490 ->
  valid_returns f -> fvals f <> [] -> numbers f M ->
  exists l, ewma_cov (N := IEEE L) f (Some h) mp = Ok l /\ map fst l = skipn (first_pos mp) (findex f) /\
    forall k t S, nth_error l k = Some (t, S) ->
      findex S = fcols f /\ fcols S = fcols f /\
      (forall i j, (i < length (fcols f))%nat -> (j < length (fcols f))%nat ->
        isnum (fcell S i j) /\ fcell S i j = fcell S j i /\ 0 <= fval (fcell S i i) /\
        Rabs (fval (fcell S i j) - ewavg (decay (fval h)) (fun s => fval (fcell f s i) * fval (fcell f s j)) (first_pos mp + k)) <= pw (-46) * M ^ 2 / (1 - decay (fval h))) /\
      (forall w : nat -> R, let n := length (fcols f) in
        - (pw (-46) * M ^ 2 / (1 - decay (fval h)) * rsum n (fun i => Rabs (w i)) ^ 2) <= rsum n (fun i => rsum n (fun j => w i * w j * fval (fcell S i j)))).
Proof.
  intros HL Hh HH HM Hf Hne Hnum.
  assert (Hn : (0 < length (fcols f))%nat) by (destruct Hf as (_ & _ & H); destruct (fcols f); [congruence|simpl; lia]).
  set (x := fun j k => fcell f k j). set (n := length (fcols f)) in *.
  assert (HH36 := HH36 h HH). set (T := length (findex f)).
  assert (Hx : forall j k, (j < n)%nat -> (k < T)%nat -> forall s, (s <= k)%nat -> isnum (x j s) /\ Rabs (fval (x j s)) <= M) by (intros j k Hj Hk s Hs; apply Hnum; unfold T in *; lia).
  assert (Hc : forall k i j, (k < T)%nat -> (i < n)%nat -> (j < n)%nat ->
    isnum (cst (N := IEEE L) (fbeta L h) mp x k i j) /\
    Rabs (fval (cst (N := IEEE L) (fbeta L h) mp x k i j) - ewavg (decay (fval h)) (fun s => fval (x i s) * fval (x j s)) k) <= pw (-46) * M ^ 2 / (1 - decay (fval h))).
  { intros k i j Hk Hi Hj. apply (fcov L h M HL HH HM mp (x i) (x j) k); apply Hx; assumption. }
  rewrite (@ewma_cov_eq (IEEE L) f (Some h) mp (fbeta L h) (fbeta_eq L h Hh HH36)).
  destruct (fvals f) eqn:E; [congruence|]. cbn [isnil]. clear E.
  assert (EC : cov_tot (N := IEEE L) (fbeta L h) mp f =
    map (fun k => (tm (findex f) k, mkFrame (N := IEEE L) (fcols f) (fcols f) (mtab n (cst (N := IEEE L) (fbeta L h) mp x k)))) (late mp T)).
  { rewrite (fframe L f Hf) at 1. rewrite (@cov_ftab (IEEE L)). fold n T x.
    match goal with |- context [filter ?p ?l] => assert (EK : filter p l = late mp T) end.
    { apply filter_ext_in. intros k Hk. apply in_seq in Hk. destruct (Nat.leb_spec mp (k + 1)).
      - rewrite all_nan_mtab_false; auto. unfold msk. destruct (Nat.ltb_spec (k + 1) mp); [lia|]. apply isnum_nan. apply Hc; auto; lia.
      - apply negb_false_iff. unfold all_nan_mat, all_nan, mtab. rewrite forallb_map. apply forallb_forall.
        intros p Hp. rewrite forallb_map. apply forallb_forall. intros q Hq. unfold msk.
        destruct (Nat.ltb_spec (k + 1) mp); [|lia]. change (is_nan (fmul (cst (N := IEEE L) (fbeta L h) mp x k p q) B754_nan) = true). rewrite fmul_nan. reflexivity. }
    rewrite EK. apply map_ext_in. intros k Hk. f_equal. f_equal. apply mtab_ext. intros i j Hi Hj. unfold late in Hk. apply filter_In in Hk. destruct Hk as [_ Hk].
    apply Nat.leb_le in Hk. unfold msk. destruct (Nat.ltb_spec (k + 1) mp); [lia|reflexivity]. }
  rewrite EC. eexists. split; [reflexivity|]. rewrite late_spec. unfold first_pos.
  split; [rewrite map_map; apply map_tm_skipn|].
  intros k t S Hk. rewrite nth_error_map in Hk. destruct (nth_error (seq (mp - 1) (T - (mp - 1))) k) as [q|] eqn:Eq; [|discriminate].
  assert (Hq : q = (mp - 1 + k)%nat /\ (q < T)%nat).
  { assert (Lk : (k < length (seq (mp - 1) (T - (mp - 1))))%nat) by (apply nth_error_Some; congruence). rewrite seq_length in Lk.
    rewrite (nth_error_nth' _ 0%nat) in Eq by (rewrite seq_length; exact Lk). rewrite seq_nth in Eq by exact Lk. inversion Eq. lia. }
  destruct Hq as [Hq1 Hq2]. simpl in Hk. inversion Hk. subst t S. cbn [findex fcols]. split; [reflexivity|]. split; [reflexivity|].
  assert (FC : forall i j, (i < n)%nat -> (j < n)%nat -> fcell (L := L) (mkFrame (N := IEEE L) (fcols f) (fcols f) (mtab n (cst (N := IEEE L) (fbeta L h) mp x q))) i j = cst (N := IEEE L) (fbeta L h) mp x q i j).
  { intros i j Hi Hj. unfold fcell. cbn [fvals]. apply mtab_nth; assumption. }
  rewrite <- Hq1. split.
  - intros i j Hi Hj. rewrite !FC by assumption. destruct (Hc q i j Hq2 Hi Hj) as [N1 E1]. split; [exact N1|]. split; [|split; [|exact E1]].
    + assert (G : forall m, cst (N := IEEE L) (fbeta L h) mp x m i j = cst (N := IEEE L) (fbeta L h) mp x m j i); [|apply G].
      unfold cst. induction m; cbn [nst]; [apply fmul_comm|]. f_equal; [exact IHm|apply fmul_comm].
    + exact (proj1 (proj1 (proj2 (fvar L h M HL HH HM mp (x i) q (Hx i q Hi Hq2))))).
  - intros w. apply (quad_close n (fun i j => fval (fcell (L := L) (mkFrame (N := IEEE L) (fcols f) (fcols f) (mtab n (cst (N := IEEE L) (fbeta L h) mp x q))) i j))
      (fun i j => ewavg (decay (fval h)) (fun s => fval (x i s) * fval (x j s)) q) w).
    + intros i j Hi Hj. rewrite FC by assumption. apply Hc; assumption.
    + apply quad_ewavg. apply decay_bounds. lra.
Qed.
