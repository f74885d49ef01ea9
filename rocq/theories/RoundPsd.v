(** * Definiteness of the yielded covariances in binary64. *)
From Coq Require Import String ZArith Reals Lra Psatz Lia List Bool Arith.
From Flocq Require Import Core BinarySingleNaN.
From Verif Require Import Num Py Ewma Spec SpecEwma EwmaReal EwmaClosed EwmaFin EwmaProps Ieee SpecRound SpecRound2 RoundRun RoundCov RoundPipe2 RoundPipe3.
Import ListNotations.
Local Open Scope R_scope.

Lemma quad_diff n (c e : nat -> nat -> R) (w : nat -> R) D :
  (forall i j, (i < n)%nat -> (j < n)%nat -> Rabs (c i j - e i j) <= D) ->
  rsum n (fun i => rsum n (fun j => w i * w j * e i j)) - D * rsum n (fun i => Rabs (w i)) ^ 2 <= rsum n (fun i => rsum n (fun j => w i * w j * c i j)).
Proof.
  intros H. assert (Q := quad_close n (fun i j => c i j - e i j) (fun _ _ => 0) w D).
  assert (Eq : rsum n (fun i => rsum n (fun j => w i * w j * c i j)) = rsum n (fun i => rsum n (fun j => w i * w j * e i j)) + rsum n (fun i => rsum n (fun j => w i * w j * (c i j - e i j)))).
  { rewrite <- rsum_plus. apply rsum_ext. intros i Hi. rewrite <- rsum_plus. apply rsum_ext. intros j Hj. ring. }
  rewrite Eq. assert (Z : - (D * rsum n (fun i => Rabs (w i)) ^ 2) <= rsum n (fun i => rsum n (fun j => w i * w j * (c i j - e i j)))); [|lra].
  apply Q.
  - intros i j Hi Hj. rewrite Rminus_0_r. apply H; assumption.
  - apply rsum_nonneg. intros i Hi. apply rsum_nonneg. intros j Hj. rewrite Rmult_0_r. lra.
Qed.
(** (sum |w|)^2 <= n sum w^2 *)
Lemma l1_l2 n (w : nat -> R) : rsum n (fun i => Rabs (w i)) ^ 2 <= INR n * rsum n (fun i => w i ^ 2).
Proof.
  set (s := rsum n (fun i => Rabs (w i))). set (q := rsum n (fun i => w i ^ 2)).
  destruct n as [|n']; [unfold s, q; simpl; lra|]. set (n := S n') in *. assert (Hn : 0 < INR n) by (apply lt_0_INR; unfold n; lia).
  assert (P : 0 <= rsum n (fun i => (Rabs (w i) - s / INR n) ^ 2)) by (apply rsum_nonneg; intros; apply pow2_ge_0).
  assert (E : rsum n (fun i => (Rabs (w i) - s / INR n) ^ 2) = q - s ^ 2 / INR n).
  { assert (G : forall m t, rsum m (fun i => (Rabs (w i) - t) ^ 2) = rsum m (fun i => w i ^ 2) - 2 * t * rsum m (fun i => Rabs (w i)) + INR m * t ^ 2).
    { intros m t. induction m as [|m IH]; [simpl; ring|]. rewrite S_INR. cbn [rsum]. rewrite IH. replace ((Rabs (w m) - t) ^ 2) with (Rabs (w m) ^ 2 - 2 * t * Rabs (w m) + t ^ 2) by ring. rewrite pow2_abs. ring. }
    rewrite G. fold s q. field. lra. }
  rewrite E in P. assert (Z : s ^ 2 / INR n * INR n <= q * INR n) by (apply Rmult_le_compat_r; lra). unfold Rdiv in Z. rewrite Rmult_assoc, Rinv_l, Rmult_1_r in Z by lra. lra.
Qed.
Lemma ex_cov_psd L (f : frame (N := IEEE L) time) hv hc p n i (w : nat -> R) : 0 < hc ->
  0 <= rsum n (fun a => rsum n (fun b => w a * w b * ex_cov f hv hc p i a b)).
Proof.
  intros Hc. assert (Q := quad_ewavg (decay hc) n (fun a s => ex_adj f hv p a s) (fun a => w a * ex_vol f hv a (p + i) * / sqrt (ex_mom f hv hc p i a a)) i (decay_bounds hc Hc)).
  eapply Rle_trans; [exact Q|]. apply Req_le. apply rsum_ext. intros a _. apply rsum_ext. intros b _.
  unfold ex_cov, ex_corr, Rdiv. rewrite Rinv_mult. unfold ex_mom at 3. ring.
Qed.

Theorem fpsd (L : libm) (P : params (N := IEEE L)) (f : frame (N := IEEE L) time) (hv hc : b64) (M w g : R) :
  let p := first_pos (min_periods_vola P) in let q := first_pos (min_periods_cov P) in
  let n := length (fcols f) in let T := length (findex f) in
  let B := rounding_bound (fval hv) (fval hc) M w g in
  accurate L -> vola_halflife P = Some hv -> cov_halflife P = Some hc -> isnum hv -> isnum hc ->
  / 2 <= fval hv <= bpow radix2 20 -> / 2 <= fval hc <= bpow radix2 20 -> use_mean P = false -> p_clip_at P = None ->
  bpow radix2 (-440) <= M <= bpow radix2 490 -> 0 < w -> 0 < g -> valid_returns f -> numbers f M -> (p + q < T)%nat ->
  (forall j k, (j < n)%nat -> (p <= k < T)%nat -> w <= ex_vol f (fval hv) j k) ->
  (forall j i, (j < n)%nat -> (q <= i)%nat -> (p + i < T)%nat -> g <= ex_mom f (fval hv) (fval hc) p i j j) ->
  B <= / 2 ->
  exists outs, iterated_ewma (N := IEEE L) P f = Ok outs /\ length outs = (T - (p + q))%nat /\
    forall m o, nth_error outs m = Some o ->
      (forall a b, (a < n)%nat -> (b < n)%nat -> isnum (fcell (icov o) a b) /\
        Rabs (fval (fcell (icov o) a b) - fval (fcell (icov o) b a)) <= 2 * (B * M ^ 2)) /\
      (forall x : nat -> R, - (B * M ^ 2 * rsum n (fun a => Rabs (x a)) ^ 2) <= rsum n (fun a => rsum n (fun b => x a * x b * fval (fcell (icov o) a b)))) /\
      (forall l : R, (forall x : nat -> R, l * rsum n (fun a => x a ^ 2) <= rsum n (fun a => rsum n (fun b => x a * x b * ex_cov f (fval hv) (fval hc) p (q + m) a b))) ->
        forall x : nat -> R, (l - INR n * (B * M ^ 2)) * rsum n (fun a => x a ^ 2) <= rsum n (fun a => rsum n (fun b => x a * x b * fval (fcell (icov o) a b)))).
Proof.
  intros p q n T B HL Ev Ec Nv Nc HHv HHc Em Ecl HM W0 G0 Hf Hnum HT HW HG HB.
  destruct (fiterated L P f hv hc M w g HL Ev Ec Nv Nc HHv HHc Em Ecl HM W0 G0 Hf Hnum HT HW HG HB) as (outs & H1 & H2 & H3).
  exists outs. split; [exact H1|]. split; [apply (f_equal (@length _)) in H2; rewrite map_length, skipn_length in H2; exact H2|].
  intros m o Ho. destruct (H3 m o Ho) as (_ & _ & H4). fold n p q B in H4.
  assert (D : forall a b, (a < n)%nat -> (b < n)%nat -> Rabs (fval (fcell (icov o) a b) - ex_cov f (fval hv) (fval hc) p (q + m) a b) <= B * M ^ 2) by (intros a b Ha Hb; apply (H4 a b Ha Hb)).
  assert (Sy : forall a b, ex_cov f (fval hv) (fval hc) p (q + m) a b = ex_cov f (fval hv) (fval hc) p (q + m) b a).
  { intros a b. unfold ex_cov, ex_corr. replace (ex_mom f (fval hv) (fval hc) p (q + m) a b) with (ex_mom f (fval hv) (fval hc) p (q + m) b a); [unfold Rdiv; rewrite !Rinv_mult; ring|].
    unfold ex_mom. apply ewavg_ext. intros s _. ring. }
  split; [|split].
  - intros a b Ha Hb. split; [apply (H4 a b Ha Hb)|]. assert (D1 := D a b Ha Hb). assert (D2 := D b a Hb Ha). rewrite Sy in D1.
    set (S0 := ex_cov f (fval hv) (fval hc) p (q + m) b a) in *. replace (fval (fcell (icov o) a b) - fval (fcell (icov o) b a)) with ((fval (fcell (icov o) a b) - S0) - (fval (fcell (icov o) b a) - S0)) by ring.
    eapply Rle_trans; [apply Rabs_triang|]. rewrite Rabs_Ropp. lra.
  - intros x. apply (quad_close n (fun a b => fval (fcell (icov o) a b)) (ex_cov f (fval hv) (fval hc) p (q + m)) x (B * M ^ 2) D). apply ex_cov_psd. lra.
  - intros l Hl x. eapply Rle_trans; [|apply (quad_diff n (fun a b => fval (fcell (icov o) a b)) (ex_cov f (fval hv) (fval hc) p (q + m)) x (B * M ^ 2) D)].
    specialize (Hl x). assert (B0 : 0 <= B * M ^ 2).
    { assert (E := D 0%nat 0%nat). assert (Hn : (0 < n)%nat) by (destruct Hf as (_ & _ & H); unfold n; destruct (fcols f); [congruence|simpl; lia]). eapply Rle_trans; [apply Rabs_pos|exact (E Hn Hn)]. }
    assert (C := Rmult_le_compat_l (B * M ^ 2) _ _ B0 (l1_l2 n x)). lra.
Qed.
