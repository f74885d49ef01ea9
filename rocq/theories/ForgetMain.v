(** * C138: the statements, and a concrete case. *)
From Coq Require Import String Reals Lra Psatz List Bool ZArith Arith Lia.
From Verif Require Import Num Py ListFacts Ewma Spec SpecEwma EwmaReal EwmaClosed EwmaProps EwmaProps3 CmPos ClipMono RoundLip SpecForget ForgetReal ForgetRun.
Import ListNotations.
Local Open Scope R_scope.

Theorem vol_forget f x h mp d M : valid_returns f -> returns_are false f x -> 0 < h ->
  (forall j k, (j < length (fcols f))%nat -> (k < length (findex f))%nat -> Rabs (x j k) <= M) -> (d < length (findex f))%nat ->
  exists v v', volatility f (Some (Fin h)) mp None = Ok v /\ volatility (later_rows d f) (Some (Fin h)) mp None = Ok v' /\
    findex v = skipn (first_pos mp) (findex f) /\ findex v' = skipn (first_pos mp) (skipn d (findex f)) /\
    forall k j, (d + first_pos mp + k < length (findex f))%nat -> (j < length (fcols f))%nat ->
      exists s s', entry v (d + k) j = Fin s /\ entry v' k j = Fin s' /\ 0 <= s /\ 0 <= s' /\ Rabs (s ^ 2 - s' ^ 2) <= M ^ 2 * decay h ^ (first_pos mp + k + 1).
Proof.
  intros Hf Hx Hh HM Hd. assert (LF : length (fvals f) = length (findex f)) by (symmetry; apply Hf).
  assert (N1 : fvals f <> []) by (intros E; rewrite E in LF; change (0 = length (findex f))%nat in LF; lia).
  assert (N2 : fvals (later_rows d f) <> []) by (intros E; apply (f_equal (@length _)) in E; change (length (skipn d (fvals f)) = 0%nat) in E; rewrite skipn_length in E; lia).
  destruct (volatility_path f x h mp None None Hf Hx N1 Hh ltac:(left; auto)) as (v & V1 & V2 & V3 & V4).
  destruct (volatility_path (later_rows d f) _ h mp None None (wf_later d f Hf) (returns_later d false f x Hx) N2 Hh ltac:(left; auto)) as (v' & W1 & W2 & W3 & W4).
  exists v, v'. split; [exact V1|]. split; [exact W1|]. split; [exact V3|]. split; [exact W3|]. intros k j Hk Hj.
  assert (E1 := V4 (first_pos mp + (d + k))%nat j ltac:(lia) Hj). assert (E2 := W4 (first_pos mp + k)%nat j ltac:(cbn; rewrite skipn_length; lia) Hj).
  replace (first_pos mp + (d + k) - first_pos mp)%nat with (d + k)%nat in E1 by lia. replace (first_pos mp + k - first_pos mp)%nat with k in E2 by lia.
  eexists; eexists. split; [exact E1|]. split; [exact E2|]. split; [apply sqrt_pos|]. split; [apply sqrt_pos|]. rewrite !pow2_sqrt by (apply winsor_nonneg; exact Hh).
  rewrite !winsor_none by exact Hh. replace (first_pos mp + (d + k))%nat with (d + (first_pos mp + k))%nat by lia. rewrite Rmult_comm.
  apply (ewavg_drop (decay h) (fun t => x j t ^ 2) d (first_pos mp + k) (M ^ 2)); [apply decay_bounds; exact Hh|].
  intros a b Ha Hb. assert (A := sq_range M _ (HM j a Hj ltac:(lia))). assert (B := sq_range M _ (HM j b Hj ltac:(lia))). apply Rabs_le. lra.
Qed.

Theorem items_forget (P : params (N := XR)) f x hv hc h1 h2 M w g d :
  let p := first_pos (min_periods_vola P) in let q := first_pos (min_periods_cov P) in
  let n := length (fcols f) in let T := length (findex f) in let x' := fun j k => x j (d + k)%nat in
  settings P hv hc h1 h2 None -> use_mean P = false -> valid_returns f -> returns_are (nan_to_num P) f x -> (d + (p + q) < T)%nat ->
  0 < w -> 0 < g -> (forall j k, (j < n)%nat -> (k < T)%nat -> Rabs (x j k) <= M) ->
  (forall j k, (j < n)%nat -> (p <= k < T)%nat -> w <= ewstd hv (x j) k) ->
  (forall j k, (j < n)%nat -> (p <= k)%nat -> (d + k < T)%nat -> w <= ewstd hv (x' j) k) ->
  (forall j i, (j < n)%nat -> (q <= i)%nat -> (p + i < T)%nat -> g <= std_moment hv hc p x i j j) ->
  (forall j i, (j < n)%nat -> (q <= i)%nat -> (d + p + i < T)%nat -> g <= std_moment hv hc p x' i j j) ->
  exists outs outs', iterated_ewma P f = Ok outs /\ iterated_ewma P (later_rows d f) = Ok outs' /\
    map itime outs = skipn (p + q) (findex f) /\ map itime outs' = skipn d (map itime outs) /\
    forall m o o', nth_error outs (d + m) = Some o -> nth_error outs' m = Some o' -> forall a b, (a < n)%nat -> (b < n)%nat ->
      exists s s' c c', vol_at o a = Fin s /\ vol_at o' a = Fin s' /\ cov_at o a b = Fin c /\ cov_at o' a b = Fin c' /\
        Rabs (s ^ 2 - s' ^ 2) <= M ^ 2 * decay hv ^ (p + (q + m) + 1) /\ Rabs (c - c') <= memory_left hv hc M w g (q + m).
Proof.
  intros p q n T x' HS Em Hf Hx HT W0 G0 HM HW HW' HG HG'.
  assert (Hn : (0 < n)%nat) by (destruct Hf as (_ & _ & H); unfold n; destruct (fcols f); [congruence|simpl; lia]). assert (HT' : (p + q < T)%nat) by lia.
  destruct (real_run P f x hv hc h1 h2 HS Em Hf Hx HT') as (outs & O1 & O2 & O3).
  { intros j k Hj Hk. assert (A := HW j k Hj Hk). lra. } { intros j i Hj Hi1 Hi2. assert (A := HG j i Hj Hi1 Hi2). unfold p in A. lra. }
  assert (LT : length (findex (later_rows d f)) = (T - d)%nat) by (cbn; rewrite skipn_length; reflexivity).
  destruct (real_run P (later_rows d f) x' hv hc h1 h2 HS Em (wf_later d f Hf) (returns_later d _ f x Hx)) as (outs' & Q1 & Q2 & Q3).
  { rewrite LT. fold p q. lia. } { rewrite LT. intros j k Hj Hk. assert (A := HW' j k Hj ltac:(apply Hk) ltac:(unfold T in *; lia)). lra. }
  { rewrite LT. fold p q. intros j i Hj Hi1 Hi2. assert (A := HG' j i Hj Hi1 ltac:(lia)). lra. }
  fold p q in Q2, Q3, O2, O3. rewrite LT in Q3. exists outs, outs'. split; [exact O1|]. split; [exact Q1|]. split; [exact O2|]. split.
  { rewrite Q2, O2. cbn [later_rows findex]. rewrite !RoundPipe2.skipn2. f_equal. lia. }
  intros m o o' Ho Ho' a b Ha Hb. destruct (O3 _ _ Ho) as (L1 & I1). destruct (Q3 _ _ Ho') as (L2 & I2). destruct (I1 a b Ha Hb) as (V1 & C1). destruct (I2 a b Ha Hb) as (V2 & C2).
  do 4 eexists. split; [exact V1|]. split; [exact V2|]. split; [exact C1|]. split; [exact C2|]. replace (q + (d + m))%nat with (d + (q + m))%nat by lia. split.
  - replace (p + (d + (q + m)))%nat with (d + (p + (q + m)))%nat by lia.
    apply (vol_drop x hv M n T d (proj2 (proj1 HS)) HM Hn a (p + (q + m))); [exact Ha|fold T; lia].
  - assert (Hv : 0 < hv) by apply HS. assert (Hc : 0 < hc) by apply HS.
    apply (cov_diff x hv hc M w g p q n T d Hv Hc W0 G0 HM HW HW' HG HG' Hn (q + m) a b Ha Hb); fold T; lia.
Qed.

(** (i + 1) r^i tends to 0. *)
Lemma inr_geom s i : 0 < s < 1 -> INR (S i) * s ^ i <= / (1 - s).
Proof.
  intros Hs. assert (K : forall i, INR (S i) * s ^ i * (1 - s) + s ^ S i <= 1).
  { clear i. induction i as [|i IH]; [simpl; lra|]. rewrite (S_INR (S i)). simpl pow in *. assert (0 < s ^ i) by (apply pow_lt; lra). assert (0 <= INR (S i)) by apply pos_INR.
    assert (s * (INR (S i) * s ^ i * (1 - s) + s * s ^ i) <= s * 1) by (apply Rmult_le_compat_l; lra).
    assert (s * s ^ i <= 1). { assert (s ^ i <= 1) by (rewrite <- (pow1 i); apply pow_incr; lra). nra. }
    assert (INR (S i) * (s * s ^ i) * (1 - s) + s * (s * s ^ i) <= s) by lra. nra. }
  assert (A := K i). assert (0 < s ^ S i) by (apply pow_lt; lra). apply Rmult_le_reg_r with (1 - s); [lra|]. rewrite Rinv_l by lra. lra.
Qed.
Lemma memory_vanishes hv hc M w g eps : 0 < hv -> 0 < hc -> 0 < w -> 0 < g -> 0 < eps -> exists N, forall i, (N <= i)%nat -> memory_left hv hc M w g i <= eps.
Proof.
  intros Hv Hc Hw Hg He. set (r := Rmax (decay hv) (decay hc)). assert (Rb : 0 < r < 1).
  { assert (A := decay_bounds hv Hv). assert (B := decay_bounds hc Hc). unfold r. split; [eapply Rlt_le_trans; [apply A|apply Rmax_l]|apply Rmax_lub_lt; lra]. }
  set (s := sqrt r). assert (S0 : 0 < s) by (apply sqrt_lt_R0; lra). assert (S1 : s < 1) by (rewrite <- sqrt_1; apply sqrt_lt_1_alt; lra). assert (SS : s * s = r) by (apply sqrt_sqrt; lra).
  set (K := 7 * M ^ 2 * (M / w) ^ 6 / g ^ 2). assert (K0 : 0 <= K).
  { unfold K. apply Rmult_le_pos; [|apply Rlt_le, Rinv_0_lt_compat; nra]. apply Rmult_le_pos; [assert (0 <= M ^ 2) by apply pow2_ge_0; lra|]. replace ((M / w) ^ 6) with (((M / w) ^ 3) ^ 2) by ring. apply pow2_ge_0. }
  assert (E : 0 < eps * (1 - s) / (K + 1)) by (apply Rdiv_lt_0_compat; [apply Rmult_lt_0_compat; lra|lra]).
  destruct (pow_lt_1_zero s ltac:(rewrite Rabs_right; lra) _ E) as (N & HN). exists N. intros i Hi. unfold memory_left. fold r K.
  assert (A := HN i ltac:(lia)). assert (P : 0 < s ^ i) by (apply pow_lt; lra). rewrite Rabs_right in A by lra.
  replace (r ^ i) with (s ^ i * s ^ i) by (rewrite <- Rpow_mult_distr, SS; reflexivity). assert (B := inr_geom s i (conj S0 S1)).
  replace (K * INR (S i) * (s ^ i * s ^ i)) with (K * s ^ i * (INR (S i) * s ^ i)) by ring.
  apply Rle_trans with (K * s ^ i * / (1 - s)); [apply Rmult_le_compat_l; [apply Rmult_le_pos; lra|exact B]|].
  apply Rmult_le_reg_r with (1 - s); [lra|]. rewrite Rmult_assoc, Rinv_l, Rmult_1_r by lra.
  apply Rle_trans with ((K + 1) * (eps * (1 - s) / (K + 1))); [apply Rmult_le_compat; lra|]. right. field. lra.
Qed.
Theorem rolling_window hv hc M w g eps : 0 < hv -> 0 < hc -> 0 < w -> 0 < g -> 0 < eps -> exists N : nat,
  forall (P : params (N := XR)) f x h1 h2 d,
  let p := first_pos (min_periods_vola P) in let q := first_pos (min_periods_cov P) in
  let n := length (fcols f) in let T := length (findex f) in let x' := fun j k => x j (d + k)%nat in
  settings P hv hc h1 h2 None -> use_mean P = false -> valid_returns f -> returns_are (nan_to_num P) f x -> (d + (p + q) < T)%nat ->
  (forall j k, (j < n)%nat -> (k < T)%nat -> Rabs (x j k) <= M) ->
  (forall j k, (j < n)%nat -> (p <= k < T)%nat -> w <= ewstd hv (x j) k) ->
  (forall j k, (j < n)%nat -> (p <= k)%nat -> (d + k < T)%nat -> w <= ewstd hv (x' j) k) ->
  (forall j i, (j < n)%nat -> (q <= i)%nat -> (p + i < T)%nat -> g <= std_moment hv hc p x i j j) ->
  (forall j i, (j < n)%nat -> (q <= i)%nat -> (d + p + i < T)%nat -> g <= std_moment hv hc p x' i j j) ->
  exists outs outs', iterated_ewma P f = Ok outs /\ iterated_ewma P (later_rows d f) = Ok outs' /\
    forall m o o', (N <= m)%nat -> nth_error outs (d + m) = Some o -> nth_error outs' m = Some o' -> itime o = itime o' /\
      forall a b, (a < n)%nat -> (b < n)%nat -> exists c c', cov_at o a b = Fin c /\ cov_at o' a b = Fin c' /\ Rabs (c - c') <= eps.
Proof.
  intros Hv Hc W0 G0 He. destruct (memory_vanishes hv hc M w g eps Hv Hc W0 G0 He) as (N & HN). exists N. intros P f x h1 h2 d p q n T x' HS Em Hf Hx HT HM HW HW' HG HG'.
  destruct (items_forget P f x hv hc h1 h2 M w g d HS Em Hf Hx HT W0 G0 HM HW HW' HG HG') as (outs & outs' & O1 & O2 & O3 & O4 & O5).
  exists outs, outs'. split; [exact O1|]. split; [exact O2|]. intros m o o' Hm Ho Ho'. split.
  - apply (f_equal (fun l => nth_error l m)) in O4. rewrite nth_error_map, Ho' in O4. cbn in O4. assert (E : nth_error (skipn d (map itime outs)) m = nth_error (map itime outs) (d + m)).
    { clear. generalize (map itime outs). induction d as [|d IH]; intros l; [reflexivity|]. destruct l; [destruct m; reflexivity|apply IH]. }
    assert (E2 : nth_error (map itime outs) (d + m) = Some (itime o)) by (rewrite nth_error_map, Ho; reflexivity). congruence.
  - intros a b Ha Hb. destruct (O5 m o o' Ho Ho' a b Ha Hb) as (s & s' & c & c' & _ & _ & C1 & C2 & _ & C3). exists c, c'. split; [exact C1|]. split; [exact C2|].
    eapply Rle_trans; [exact C3|]. apply HN. lia.
Qed.
