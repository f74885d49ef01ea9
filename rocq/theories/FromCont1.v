(** * C144: the items of iterated_ewma are continuous in the returns. *)
From Coq Require Import String Reals Lra Psatz List Bool ZArith Arith Lia.
From Verif Require Import Num Py ListFacts Ewma Spec SpecEwma EwmaReal EwmaClosed EwmaProps EwmaProps3 EwmaAny Combination FromEwmas SpecFrom FromEwmasProps ForgetReal ForgetRun SpecForget LipRun LipMain SpecCont.
Import ListNotations.
Local Open Scope R_scope.

Lemma rsum_pos_one m (f : nat -> R) s : (s < m)%nat -> 0 < f s -> (forall i, 0 <= f i) -> 0 < rsum m f.
Proof.
  intros Hs Hf H0. induction m as [|m IH]; [lia|]. cbn [rsum]. destruct (Nat.eq_dec s m) as [->|N].
  - assert (0 <= rsum m f) by (clear - H0; induction m; cbn [rsum]; [lra|]; specialize (H0 m); lra). lra.
  - specialize (IH ltac:(lia)). specialize (H0 m). lra.
Qed.
Lemma ewavg_pos b u k s : 0 < b < 1 -> (forall i, 0 <= u i) -> (s <= k)%nat -> 0 < u s -> 0 < ewavg b u k.
Proof.
  intros Hb Hu Hs Hp. unfold ewavg. apply Rdiv_lt_0_compat.
  - apply rsum_pos_one with s; [lia|apply Rmult_lt_0_compat; [apply pow_lt; lra|exact Hp]|]. intros i. apply Rmult_le_pos; [apply pow_le; lra|apply Hu].
  - apply rsum_pos_one with 0%nat; [lia|apply pow_lt; lra|]. intros i. apply pow_le; lra.
Qed.
Lemma ewstd_pos h (y : nat -> R) k s : 0 < h -> (s <= k)%nat -> y s <> 0 -> 0 < ewstd h y k.
Proof.
  intros Hh Hs Hy. unfold ewstd. apply sqrt_lt_R0. apply ewavg_pos with s; auto using decay_bounds.
  - intros i. apply pow2_ge_0.
  - nra.
Qed.

(** A positive lower bound, and an upper bound, of finitely many numbers. *)
Lemma low1 (f : nat -> R) T : (forall k, (k < T)%nat -> 0 < f k) -> exists w, 0 < w /\ forall k, (k < T)%nat -> w <= f k.
Proof.
  induction T as [|T IH]; intros H; [exists 1; split; [lra|lia]|]. destruct IH as (w & W & B); [intros k Hk; apply H; lia|].
  exists (Rmin w (f T)). split; [apply Rmin_glb_lt; [exact W|apply H; lia]|]. intros k Hk. destruct (Nat.eq_dec k T) as [->|N]; [apply Rmin_r|].
  eapply Rle_trans; [apply Rmin_l|]. apply B. lia.
Qed.
Lemma low2 (f : nat -> nat -> R) n T (P : nat -> Prop) : (forall j k, (j < n)%nat -> (k < T)%nat -> P k -> 0 < f j k) ->
  exists w, 0 < w /\ forall j k, (j < n)%nat -> (k < T)%nat -> P k -> w <= f j k.
Proof.
  intros H. assert (D : forall k, P k \/ ~ P k) by (intros; apply Classical_Prop.classic).
  assert (L : forall g : nat -> R, (forall k, (k < T)%nat -> P k -> 0 < g k) -> exists w, 0 < w /\ forall k, (k < T)%nat -> P k -> w <= g k).
  { intros g. generalize T as m. induction m as [|m IH]; intros Hg; [exists 1; split; [lra|lia]|]. destruct IH as (w & W & B); [intros k Hk; apply Hg; lia|].
    destruct (D m) as [Pm|Nm].
    - exists (Rmin w (g m)). split; [apply Rmin_glb_lt; [exact W|apply Hg; [lia|exact Pm]]|]. intros k Hk Pk. destruct (Nat.eq_dec k m) as [->|N]; [apply Rmin_r|].
      eapply Rle_trans; [apply Rmin_l|]. apply B; [lia|exact Pk].
    - exists w. split; [exact W|]. intros k Hk Pk. destruct (Nat.eq_dec k m) as [->|N]; [contradiction|]. apply B; [lia|exact Pk]. }
  induction n as [|n IH]; [exists 1; split; [lra|intros; lia]|]. destruct IH as (w & W & B); [intros; apply H; auto; lia|].
  destruct (L (f n)) as (v & V & C); [intros; apply H; auto|].
  exists (Rmin w v). split; [apply Rmin_glb_lt; assumption|]. intros j k Hj Hk Pk. destruct (Nat.eq_dec j n) as [->|N].
  - eapply Rle_trans; [apply Rmin_r|]. apply C; assumption.
  - eapply Rle_trans; [apply Rmin_l|]. apply B; auto. lia.
Qed.
Lemma high2 (f : nat -> nat -> R) n T : exists M, 0 <= M /\ forall j k, (j < n)%nat -> (k < T)%nat -> Rabs (f j k) <= M.
Proof.
  assert (L : forall (g : nat -> R) m, exists M, 0 <= M /\ forall k, (k < m)%nat -> Rabs (g k) <= M).
  { intros g m. induction m as [|m (M & M0 & B)]; [exists 0; split; [lra|lia]|]. exists (Rmax M (Rabs (g m))).
    split; [eapply Rle_trans; [exact M0|apply Rmax_l]|]. intros k Hk. destruct (Nat.eq_dec k m) as [->|N]; [apply Rmax_r|].
    eapply Rle_trans; [|apply Rmax_l]. apply B. lia. }
  induction n as [|n (M & M0 & B)]; [exists 0; split; [lra|intros; lia]|]. destruct (L (f n) T) as (M' & _ & C). exists (Rmax M M').
  split; [eapply Rle_trans; [exact M0|apply Rmax_l]|]. intros j k Hj Hk. destruct (Nat.eq_dec j n) as [->|N].
  - eapply Rle_trans; [|apply Rmax_r]. apply C; assumption.
  - eapply Rle_trans; [|apply Rmax_l]. apply B; auto. lia.
Qed.

Section Cont.
  Context (f : frame (N := XR) time) (x : nat -> nat -> R) (mpv mpc : nat).
  Let n := length (fcols f).
  Let T := length (findex f).
  Let p := first_pos mpv.
  Let q := first_pos mpc.
  Hypothesis Hf : valid_returns f.
  Hypothesis Hx : returns_are false f x.
  Hypothesis HT : (p + q < T)%nat.
  Hypothesis Hm : moving x n mpv mpc.
  Notation pp pr := (pair_params (N := XR) mpv mpc None false pr).

  Definition like (f' : frame (N := XR) time) (y : nat -> nat -> R) : Prop :=
    valid_returns f' /\ findex f' = findex f /\ fcols f' = fcols f /\ returns_are false f' y.
  (** Items within d: same dates, finite covariances within d, zero means. *)
  Definition items_within (d : R) (outs outs' : list (IEWMA (N := XR))) : Prop :=
    map itime outs = skipn (p + q) (findex f) /\ map itime outs' = map itime outs /\
    forall m o o', nth_error outs m = Some o -> nth_error outs' m = Some o' -> forall a, (a < n)%nat ->
      mean_at o a = Fin 0 /\ mean_at o' a = Fin 0 /\
      forall b, (b < n)%nat -> exists c c', cov_at o a b = Fin c /\ cov_at o' a b = Fin c' /\ Rabs (c - c') <= d.

  Lemma like_true g y : returns_are false g y -> returns_are true g y.
  Proof. intros H k j Hk Hj. destruct (H k j Hk Hj) as [E|(_ & E & _)]; [left; exact E|discriminate]. Qed.

  Lemma zero_means g y hv hc outs : valid_returns g -> returns_are false g y -> 0 < hv -> 0 < hc ->
    iterated_ewma (pp (Some (Fin hv), Some (Fin hc))) g = Ok outs ->
    forall m o a, nth_error outs m = Some o -> (a < length (fcols g))%nat -> mean_at o a = Fin 0.
  Proof.
    intros Hg Hy H1 H2 E m o a Ho Ha.
    assert (HS : settings (pp (Some (Fin hv), Some (Fin hc))) hv hc hv hc None).
    { split; [split; auto|]. split; [split; auto|]. split; [left; auto|]. split; [left; auto|]. left. reflexivity. }
    destruct (run_total _ _ _ _ _ _ _ _ HS Hg (like_true _ _ Hy)) as (rows & _ & _ & R1 & R2).
    destruct rows as [|r rows]; [rewrite R1 in E by auto; discriminate|]. destruct (R2 ltac:(discriminate)) as (outs' & E' & _ & H).
    rewrite E in E'. injection E' as <-. destruct (H m o Ho a Ha) as (_ & Hm' & _). exact Hm'.
  Qed.

  Lemma items_cont hv hc d : 0 < hv -> 0 < hc -> 0 < d -> exists e, 0 < e /\ forall f' y, like f' y -> returns_near e n T x y ->
    exists outs outs', iterated_ewma (pp (Some (Fin hv), Some (Fin hc))) f = Ok outs /\ iterated_ewma (pp (Some (Fin hv), Some (Fin hc))) f' = Ok outs' /\
      items_within d outs outs'.
  Proof.
    intros H1 H2 Hd.
    assert (HS : settings (pp (Some (Fin hv), Some (Fin hc))) hv hc hv hc None).
    { split; [split; auto|]. split; [split; auto|]. split; [left; auto|]. split; [left; auto|]. left. reflexivity. }
    assert (Hn : (0 < n)%nat) by (destruct Hf as (_ & _ & H); unfold n; destruct (fcols f); [congruence|simpl; lia]).
    assert (PV : forall j k, (j < n)%nat -> (p <= k)%nat -> 0 < ewstd hv (x j) k).
    { intros j k Hj Hk. destruct (Hm j Hj) as ((s & S1 & S2) & _). apply ewstd_pos with s; auto. fold p in S1. lia. }
    assert (PM : forall j i, (j < n)%nat -> (q <= i)%nat -> 0 < std_moment hv hc p x i j j).
    { intros j i Hj Hi. destruct (Hm j Hj) as (_ & s & S1 & S2). fold p q in S1. unfold std_moment.
      apply ewavg_pos with (s - p)%nat; [apply decay_bounds; exact H2|intros r; apply Rle_0_sqr|lia|].
      unfold std_return. replace (p + (s - p))%nat with s by lia. pose proof (PV j s Hj ltac:(lia)) as V. set (v := ewstd hv (x j) s) in *.
      assert (x j s / v <> 0). { unfold Rdiv. apply Rmult_integral_contrapositive_currified; [exact S2|]. apply Rinv_neq_0_compat. lra. } nra. }
    destruct (low2 (fun j k => ewstd hv (x j) k) n T (fun k => p <= k)%nat) as (w0 & W0 & BW); [intros; apply PV; auto|].
    destruct (low2 (fun j i => std_moment hv hc p x i j j) n T (fun i => q <= i)%nat) as (g0 & G0 & BG); [intros; apply PM; auto|].
    destruct (high2 x n T) as (M0 & M00 & BM).
    set (w := w0 / 2). set (g := g0 / 2). set (M := M0 + 1). assert (W : 0 < w) by (unfold w; lra). assert (G : 0 < g) by (unfold g; lra). assert (MP : 0 < M) by (unfold M; lra).
    set (A := 4 * (M / w) ^ 2 / w). set (B := 10 * M * (M / w) ^ 5 / g ^ 2).
    assert (MW : 0 < M / w) by (apply Rdiv_lt_0_compat; assumption).
    assert (AP : 0 < A) by (unfold A; apply Rdiv_lt_0_compat; [pose proof (pow_lt _ 2 MW); lra|exact W]).
    assert (BP : 0 < B). { unfold B. apply Rdiv_lt_0_compat; [|apply pow_lt; exact G]. pose proof (pow_lt _ 5 MW). nra. }
    exists (Rmin (Rmin 1 w) (Rmin (g / A) (d / B))).
    assert (EP : 0 < Rmin (Rmin 1 w) (Rmin (g / A) (d / B))).
    { repeat apply Rmin_glb_lt; try lra; apply Rdiv_lt_0_compat; assumption. }
    split; [exact EP|]. set (e := Rmin _ _) in *. intros f' y (F1 & F2 & F3 & F4) Hy.
    assert (E1 : e <= 1) by (unfold e; eapply Rle_trans; [apply Rmin_l|apply Rmin_l]).
    assert (E2 : e <= w) by (unfold e; eapply Rle_trans; [apply Rmin_l|apply Rmin_r]).
    assert (E3 : A * e <= g). { assert (e <= g / A) by (unfold e; eapply Rle_trans; [apply Rmin_r|apply Rmin_l]). apply Rmult_le_compat_l with (r := A) in H; [|lra]. replace (A * (g / A)) with g in H by (field; lra). exact H. }
    assert (E4 : B * e <= d). { assert (e <= d / B) by (unfold e; eapply Rle_trans; [apply Rmin_r|apply Rmin_r]). apply Rmult_le_compat_l with (r := B) in H; [|lra]. replace (B * (d / B)) with d in H by (field; lra). exact H. }
    assert (HX : forall j k, (j < n)%nat -> (k < T)%nat -> Rabs (x j k) <= M) by (intros j k Hj Hk; pose proof (BM j k Hj Hk); unfold M; lra).
    assert (HY : forall j k, (j < n)%nat -> (k < T)%nat -> Rabs (y j k) <= M).
    { intros j k Hj Hk. pose proof (BM j k Hj Hk). pose proof (Hy j k Hj Hk) as D. pose proof (Rabs_triang_inv (y j k) (x j k)). rewrite Rabs_minus_sym in D. unfold M. lra. }
    assert (HW : forall j k, (j < n)%nat -> (p <= k < T)%nat -> w <= ewstd hv (x j) k) by (intros j k Hj Hk; pose proof (BW j k Hj ltac:(lia) ltac:(lia)) as H; cbv beta in H; unfold w; lra).
    assert (HW' : forall j k, (j < n)%nat -> (p <= k < T)%nat -> w <= ewstd hv (y j) k).
    { intros j k Hj Hk. pose proof (BW j k Hj ltac:(lia) ltac:(lia)) as H. cbv beta in H.
      assert (D : Rabs (ewstd hv (x j) k - ewstd hv (y j) k) <= e) by (apply ewstd_lip; [exact H1|]; intros s Hs; apply Hy; [exact Hj|lia]).
      pose proof (Rle_abs (ewstd hv (x j) k - ewstd hv (y j) k)). unfold w in *. lra. }
    assert (HG : forall j i, (j < n)%nat -> (q <= i)%nat -> (p + i < T)%nat -> g <= std_moment hv hc p x i j j) by (intros j i Hj Hi Hi'; pose proof (BG j i Hj ltac:(lia) ltac:(lia)) as H; cbv beta in H; unfold g; lra).
    assert (HG' : forall j i, (j < n)%nat -> (q <= i)%nat -> (p + i < T)%nat -> g <= std_moment hv hc p y i j j).
    { intros j i Hj Hi Hi'. pose proof (BG j i Hj ltac:(lia) ltac:(lia)) as H. cbv beta in H.
      assert (D : Rabs (std_moment hv hc p x i j j - std_moment hv hc p y i j j) <= 4 * (M / w) ^ 2 * e / w) by (apply (md x y hv hc M w e p n T); auto).
      replace (4 * (M / w) ^ 2 * e / w) with (A * e) in D by (unfold A; field; lra).
      pose proof (Rle_abs (std_moment hv hc p x i j j - std_moment hv hc p y i j j)). unfold g in *. lra. }
    destruct (items_lipschitz (pp (Some (Fin hv), Some (Fin hc))) f f' x y hv hc hv hc M w g e HS eq_refl Hf F1 F2 F3 (like_true _ _ Hx) (like_true _ _ F4) HT W G) as (outs & outs' & O1 & O2 & O3 & O4 & O5).
    { intros j k Hj Hk. split; [apply HX|split; [apply HY|apply Hy]]; assumption. }
    { intros j k Hj Hk. split; [apply HW|apply HW']; assumption. }
    { intros j i Hj Hi Hi'. split; [apply HG|apply HG']; assumption. }
    exists outs, outs'. split; [exact O1|]. split; [exact O2|]. split; [exact O3|]. split; [exact O4|].
    intros m o o' Ho Ho' a Ha. split; [exact (zero_means f x hv hc outs Hf Hx H1 H2 O1 m o a Ho Ha)|].
    split; [apply (zero_means f' y hv hc outs' F1 F4 H1 H2 O2 m o' a Ho'); rewrite F3; exact Ha|].
    intros b Hb. destruct (O5 m o o' Ho Ho' a b Ha Hb) as (_ & _ & c & c' & _ & _ & C1 & C2 & _ & C3). exists c, c'. split; [exact C1|]. split; [exact C2|]. unfold B in E4. lra.
  Qed.

  (** The same for finitely many pairs at once. *)
  Lemma all_cont pairs d : positive_halflives pairs -> 0 < d -> exists e, 0 < e /\ forall f' y, like f' y -> returns_near e n T x y ->
    forall pr, In pr pairs -> exists outs outs', iterated_ewma (pp pr) f = Ok outs /\ iterated_ewma (pp pr) f' = Ok outs' /\ items_within d outs outs'.
  Proof.
    intros HP Hd. induction pairs as [|pr pairs IH]; [exists 1; split; [lra|intros ? ? _ _ ? []]|].
    destruct IH as (e & E & H); [intros r Hr; apply HP; right; exact Hr|].
    destruct (HP pr (or_introl eq_refl)) as (h1 & h2 & -> & P1 & P2). destruct (items_cont h1 h2 d P1 P2 Hd) as (e' & E' & H').
    exists (Rmin e e'). split; [apply Rmin_glb_lt; assumption|]. intros f' y L Hy r [<-|Hr].
    - apply (H' f' y L). intros j k Hj Hk. eapply Rle_trans; [apply Hy; assumption|apply Rmin_r].
    - apply (H f' y L); [|exact Hr]. intros j k Hj Hk. eapply Rle_trans; [apply Hy; assumption|apply Rmin_l].
  Qed.
End Cont.

(** The value under a key comes from the same entry in both lists. *)
Lemma last_pair {A V W} (label : A -> string) (F : A -> V) (G : A -> W) l k v :
  last_value (map (fun p => (label p, F p)) l) k = Some v ->
  exists p, In p l /\ label p = k /\ v = F p /\ last_value (map (fun p => (label p, G p)) l) k = Some (G p).
Proof.
  revert v. induction l as [|a l IH]; intros v H; [discriminate|]. cbn [map last_value] in *.
  destruct (last_value (map (fun p => (label p, F p)) l) k) as [u|] eqn:E.
  - inversion H; subst u. destruct (IH v eq_refl) as (r & R1 & R2 & R3 & R4). exists r. rewrite R4. split; [right; exact R1|]. auto.
  - destruct (last_value (map (fun p => (label p, G p)) l) k) as [u|] eqn:E'.
    + exfalso. clear - E E'. induction l as [|b l IH]; [discriminate|]. cbn [map last_value] in *.
      destruct (last_value (map (fun p => (label p, F p)) l) k); [discriminate|].
      destruct (last_value (map (fun p => (label p, G p)) l) k); [apply IH; auto|]. destruct (String.eqb k (label b)); discriminate.
    + destruct (String.eqb k (label a)) eqn:Ek; [|discriminate]. inversion H; subst v. apply String.eqb_eq in Ek. exists a. split; [left; reflexivity|]. auto.
Qed.
