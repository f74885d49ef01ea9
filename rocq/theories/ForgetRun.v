(** * iterated_ewma on a history and on its recent part. *)
From Coq Require Import String Reals Lra Psatz List Bool ZArith Arith Lia.
From Verif Require Import Num Py ListFacts Ewma EwmaTot EwmaPrefix EwmaEquiv EwmaTab Spec SpecEwma EwmaReal EwmaClosed EwmaFin EwmaProps EwmaProps2 EwmaProps3 EwmaAny RoundLip RoundPipe RoundPipe2 SpecForget ForgetReal.
Import ListNotations.
Local Open Scope R_scope.

Section Run.
  Context (P : params (N := XR)) (f : frame (N := XR) time) (x : nat -> nat -> R) (hv hc h1 h2 : R).
  Let p := first_pos (min_periods_vola P).
  Let q := first_pos (min_periods_cov P).
  Let T := length (findex f).
  Let n := length (fcols f).
  Hypothesis HS : settings P hv hc h1 h2 None.
  Hypothesis Em : use_mean P = false.
  Hypothesis Hf : valid_returns f.
  Hypothesis Hx : returns_are (nan_to_num P) f x.
  Hypothesis HT : (p + q < T)%nat.
  Hypothesis HW : forall j k, (j < n)%nat -> (p <= k < T)%nat -> 0 < ewstd hv (x j) k.
  Hypothesis HG : forall j i, (j < n)%nat -> (q <= i)%nat -> (p + i < T)%nat -> 0 < std_moment hv hc p x i j j.

  Lemma np_ : (0 < length (fcols f))%nat.
  Proof. destruct Hf as (_ & _ & H). destruct (fcols f); [congruence|simpl; lia]. Qed.
  Lemma hvp : 0 < hv. Proof. apply HS. Qed.
  Lemma pv_ j k : pv P hv h1 None x j k = ewstd hv (x j) k.
  Proof.
    unfold pv, rvol, py, cen. rewrite Em. cbn [sqo option_map]. rewrite rst_closed by (apply decay_bounds, hvp). unfold ewstd. f_equal.
    apply ewavg_ext. intros s _. ring.
  Qed.
  Lemma kp_ : kp P hv h1 None (findex f) (fcols f) x = seq p (T - p).
  Proof.
    change (seq p (T - p)) with (seq (min_periods_vola P - 1) (T - (min_periods_vola P - 1))). rewrite <- late_spec. unfold kp, late. apply filter_ext_in. intros k Hk. apply in_seq in Hk. fold T in Hk.
    destruct (Nat.leb_spec (min_periods_vola P) (k + 1)); [|reflexivity]. cbn [andb]. apply existsb_exists. exists 0%nat. split; [apply in_seq; split; [lia|apply np_]|].
    unfold dfb. rewrite pv_. destruct (Req_EM_T _ 0) as [E|]; [|reflexivity]. exfalso.
    assert (A := HW 0 k np_ ltac:(unfold p, first_pos; lia)). lra.
  Qed.
  Lemma kpos_ i : (p + i < T)%nat -> kpos P hv h1 None (findex f) (fcols f) x i = (p + i)%nat.
  Proof. intros Hi. unfold kpos. rewrite kp_. apply seq_nth. lia. Qed.
  Lemma pa_ j i : (j < n)%nat -> (p + i < T)%nat -> pa P hv h1 h2 None (findex f) (fcols f) x j i = std_return hv p x j i.
  Proof.
    intros Hj Hi. unfold pa, cen, pa0. rewrite Em. rewrite kpos_, pv_ by exact Hi. unfold radj. assert (A := HW j (p + i)%nat Hj ltac:(lia)).
    destruct (Req_EM_T _ 0); [lra|]. unfold clipR, py, cen. rewrite Em. reflexivity.
  Qed.
  Lemma pc_ i a b : (a < n)%nat -> (b < n)%nat -> (p + i < T)%nat ->
    pc P hv hc h1 h2 None (findex f) (fcols f) x i a b = std_moment hv hc p x i a b.
  Proof. intros Ha Hb Hi. unfold pc, std_moment. apply ewavg_ext. intros s Hs. rewrite !pa_ by (auto; lia). reflexivity. Qed.
  Theorem real_run : exists outs, iterated_ewma P f = Ok outs /\ map itime outs = skipn (p + q) (findex f) /\
    forall m o, nth_error outs m = Some o -> (p + (q + m) < T)%nat /\ forall a b, (a < n)%nat -> (b < n)%nat ->
      vol_at o a = Fin (ewstd hv (x a) (p + (q + m))) /\
      cov_at o a b = Fin (ewstd hv (x a) (p + (q + m)) * ewstd hv (x b) (p + (q + m)) *
        (std_moment hv hc p x (q + m) a b / (sqrt (std_moment hv hc p x (q + m) a a) * sqrt (std_moment hv hc p x (q + m) b b)))).
  Proof.
    rewrite (iterated_explicit P f x hv hc h1 h2 None HS Hf Hx). cbv zeta. rewrite kp_.
    assert (NE : isnil (seq p (T - p)) = false) by (destruct (T - p)%nat eqn:E; [lia|reflexivity]). rewrite NE. eexists. split; [reflexivity|].
    rewrite seq_length. rewrite late_spec. change (min_periods_cov P - 1)%nat with q. split.
    - rewrite map_map. cbn [pitem itime]. rewrite <- skipn2. rewrite <- (map_tm_skipn (findex f) p). fold T.
      rewrite <- (map_tm_skipn (map (tm (findex f)) (seq p (T - p))) q), map_length, seq_length.
      apply map_ext_in. intros i Hi. apply in_seq in Hi. rewrite kpos_ by lia. unfold tm at 2. rewrite (nth_map_lt _ _ _ 0%nat) by (rewrite seq_length; lia). rewrite seq_nth by lia. reflexivity.
    - intros m o Hm. rewrite nth_error_map in Hm. destruct (nth_error (seq q (T - p - q)) m) as [i|] eqn:Eq; [|discriminate Hm].
      assert (Hi : i = (q + m)%nat /\ (p + i < T)%nat).
      { assert (Lk : (m < length (seq q (T - p - q)))%nat) by (apply nth_error_Some; congruence). rewrite seq_length in Lk.
        rewrite (nth_error_nth' _ 0%nat) in Eq by (rewrite seq_length; exact Lk). rewrite seq_nth in Eq by exact Lk. inversion Eq. lia. }
      destruct Hi as [Hi1 Hi2]. rewrite <- Hi1. simpl in Hm. inversion Hm. subst o. clear Hm. split; [exact Hi2|]. intros a b Ha Hb. unfold vol_at, cov_at, pitem. cbn [icov ivol fvals]. split.
      + rewrite (nth_map_lt _ _ _ 0%nat) by (rewrite seq_length; exact Ha). rewrite seq_nth by exact Ha. cbn [plus]. rewrite pv_, kpos_ by exact Hi2. reflexivity.
      + rewrite mtab_nth by assumption. unfold pcov. rewrite !pc_, !pv_, !kpos_ by assumption.
        assert (A := HG a i Ha ltac:(lia) Hi2). assert (C := HG b i Hb ltac:(lia) Hi2).
        destruct (Req_EM_T _ 0); [lra|]. destruct (Req_EM_T _ 0); [lra|]. f_equal. ring.
  Qed.
End Run.

(** ** the later rows *)
Lemma wf_later d (f : frame (N := XR) time) : valid_returns f -> valid_returns (later_rows d f).
Proof.
  intros ((A & B) & C & D). split; [split|split; [|exact D]].
  - cbn. rewrite !skipn_length. rewrite A. reflexivity.
  - cbn. apply Forall_forall. intros r Hr. apply (proj1 (Forall_forall _ _) B). rewrite <- (firstn_skipn d (fvals f)). apply in_or_app. right. exact Hr.
  - cbn. clear A B D. revert C. generalize (findex f). induction d as [|d IH]; intros l C; [exact C|]. destruct l as [|t l]; [exact C|]. cbn. apply IH. destruct l; [exact I|apply C].
Qed.
Lemma returns_later d b (f : frame (N := XR) time) x : returns_are b f x -> returns_are b (later_rows d f) (fun j k => x j (d + k)%nat).
Proof.
  intros H k j Hk Hj. cbn in Hk. rewrite skipn_length in Hk. assert (A := H (d + k)%nat j ltac:(lia) Hj). unfold entry in *. cbn [later_rows fvals].
  rewrite EwmaAny.nth_skipn_eq. exact A.
Qed.
Section Close.
  Lemma abs_div_le u v c e : 0 < c -> c <= v -> Rabs u <= e -> Rabs (u / v) <= e / c.
  Proof.
    intros C V U. unfold Rdiv. rewrite Rabs_mult. apply Rmult_le_compat; try apply Rabs_pos; [exact U|]. rewrite Rabs_inv, (Rabs_right v) by lra. apply Rinv_le_contravar; lra.
  Qed.
  Lemma sqrt_close A B c : 0 < c -> c <= A -> c <= B -> Rabs (A ^ 2 - B ^ 2) / (2 * c) >= Rabs (A - B).
  Proof.
    intros C HA HB. replace (A - B) with ((A ^ 2 - B ^ 2) / (A + B)) by (field; lra). apply Rle_ge, abs_div_le; try lra.
  Qed.
  Lemma corr_close A B C A' B' C' g Q mu : 0 < g -> g <= A <= Q -> g <= B <= Q -> g <= A' <= Q -> g <= B' <= Q -> Rabs C <= sqrt A * sqrt B ->
    Rabs (A - A') <= mu -> Rabs (B - B') <= mu -> Rabs (C - C') <= mu ->
    Rabs (C / (sqrt A * sqrt B) - C' / (sqrt A' * sqrt B')) <= 2 * Q * mu / g ^ 2.
  Proof.
    intros G HA HB HA' HB' HC DA DB DC. rewrite <- !sqrt_mult_alt in * by lra. set (S := sqrt (A * B)) in *. set (S' := sqrt (A' * B')).
    assert (SG : g <= S) by (rewrite <- (sqrt_square g) by lra; apply sqrt_le_1_alt; nra). assert (SG' : g <= S') by (rewrite <- (sqrt_square g) by lra; apply sqrt_le_1_alt; nra).
    assert (E : S ^ 2 = A * B) by (unfold S; rewrite pow2_sqrt by nra; reflexivity). assert (E' : S' ^ 2 = A' * B') by (unfold S'; rewrite pow2_sqrt by nra; reflexivity).
    assert (M0 : 0 <= mu) by (eapply Rle_trans; [apply Rabs_pos|exact DA]).
    assert (D : Rabs (S' - S) <= Q * mu / g).
    { replace (Q * mu / g) with (2 * Q * mu / (2 * g)) by (field; lra). eapply Rle_trans; [apply Rge_le, (sqrt_close S' S g G SG' SG)|]. unfold Rdiv. apply Rmult_le_compat_r; [apply Rlt_le, Rinv_0_lt_compat; lra|].
      rewrite E, E'. replace (A' * B' - A * B) with (B' * (A' - A) + A * (B' - B)) by ring. eapply Rle_trans; [apply Rabs_triang|]. rewrite !Rabs_mult, (Rabs_right B'), (Rabs_right A) by lra.
      rewrite (Rabs_minus_sym A' A), (Rabs_minus_sym B' B). assert (B' * Rabs (A - A') <= Q * mu) by (apply Rmult_le_compat; try apply Rabs_pos; lra). assert (A * Rabs (B - B') <= Q * mu) by (apply Rmult_le_compat; try apply Rabs_pos; lra). lra. }
    replace (C / S - C' / S') with ((C - C') / S' + (C / S) * ((S' - S) / S')) by (field; lra). eapply Rle_trans; [apply Rabs_triang|].
    assert (T1 : Rabs ((C - C') / S') <= mu / g) by (apply abs_div_le; assumption).
    assert (T2 : Rabs (C / S * ((S' - S) / S')) <= 1 * (Q * mu / g / g)).
    { rewrite Rabs_mult. apply Rmult_le_compat; try apply Rabs_pos; [|apply abs_div_le; assumption]. unfold Rdiv. rewrite Rabs_mult, Rabs_inv, (Rabs_right S) by lra. apply Rmult_le_reg_r with S; [lra|]. rewrite Rmult_assoc, Rinv_l by lra. lra. }
    assert (T3 : mu / g <= Q * mu / g / g).
    { apply Rmult_le_reg_r with (g * g); [nra|]. replace (mu / g * (g * g)) with (g * mu) by (field; lra). replace (Q * mu / g / g * (g * g)) with (Q * mu) by (field; lra). nra. }
    replace (2 * Q * mu / g ^ 2) with (Q * mu / g / g + Q * mu / g / g) by (field; lra). lra.
  Qed.
End Close.

Section Two.
  Context (x : nat -> nat -> R) (hv hc M w g : R) (p q n T d : nat).
  Hypothesis Hv : 0 < hv.
  Hypothesis Hc : 0 < hc.
  Hypothesis W0 : 0 < w.
  Hypothesis G0 : 0 < g.
  Let sh := fun j k => x j (d + k)%nat.
  Let b := decay hv. Let c := decay hc. Let r := Rmax b c.
  Hypothesis HX : forall j k, (j < n)%nat -> (k < T)%nat -> Rabs (x j k) <= M.
  Hypothesis HW : forall j k, (j < n)%nat -> (p <= k < T)%nat -> w <= ewstd hv (x j) k.
  Hypothesis HW' : forall j k, (j < n)%nat -> (p <= k)%nat -> (d + k < T)%nat -> w <= ewstd hv (sh j) k.
  Hypothesis HG : forall j i, (j < n)%nat -> (q <= i)%nat -> (p + i < T)%nat -> g <= std_moment hv hc p x i j j.
  Hypothesis HG' : forall j i, (j < n)%nat -> (q <= i)%nat -> (d + p + i < T)%nat -> g <= std_moment hv hc p sh i j j.
  Hypothesis Hn : (0 < n)%nat.
  Let bb : 0 < b < 1 := decay_bounds hv Hv.
  Let cb : 0 < c < 1 := decay_bounds hc Hc.
  Lemma rb : 0 < r < 1 /\ b <= r /\ c <= r.
  Proof. unfold r. assert (A := Rmax_l b c). assert (B := Rmax_r b c). split; [|split; assumption]. split; [lra|]. apply Rmax_lub_lt; lra. Qed.

  Lemma sq_vol k (y : nat -> R) : ewstd hv y k ^ 2 = ewavg b (fun s => y s ^ 2) k.
  Proof. unfold ewstd. apply pow2_sqrt. apply (ewavg_nonneg _ (decay_bounds hv Hv)). intros s _. apply pow2_ge_0. Qed.
  Lemma sq_range u : Rabs u <= M -> 0 <= u ^ 2 <= M ^ 2.
  Proof. intros H. split; [apply pow2_ge_0|]. rewrite <- (pow2_abs u). apply pow_incr. split; [apply Rabs_pos|exact H]. Qed.
  Lemma vol_le y k : (forall s, (s <= k)%nat -> Rabs (y s) <= M) -> ewstd hv y k <= M.
  Proof.
    intros H. assert (M0 : 0 <= M) by (eapply Rle_trans; [apply Rabs_pos|apply (H k); lia]). rewrite <- (sqrt_pow2 M) by exact M0. unfold ewstd. apply sqrt_le_1_alt.
    eapply Rle_trans; [apply Rle_abs|]. apply ewavg_abs; [exact bb|]. intros s Hs. rewrite Rabs_right; [apply sq_range, H, Hs|apply Rle_ge, pow2_ge_0].
  Qed.
  Lemma vol_drop j k : (j < n)%nat -> (d + k < T)%nat -> Rabs (ewstd hv (x j) (d + k) ^ 2 - ewstd hv (sh j) k ^ 2) <= M ^ 2 * b ^ (k + 1).
  Proof.
    intros Hj Hk. rewrite !sq_vol. rewrite Rmult_comm. unfold sh. apply (ewavg_drop b (fun s => x j s ^ 2) d k (M ^ 2) bb).
    intros s t Hs Ht. assert (A := sq_range _ (HX j s Hj ltac:(lia))). assert (B := sq_range _ (HX j t Hj ltac:(lia))). apply Rabs_le. lra.
  Qed.
  Lemma Mw k : (p <= k < T)%nat -> w <= M.
  Proof. intros H. eapply Rle_trans; [apply (HW 0 k Hn H)|]. apply vol_le. intros s Hs. apply HX; [exact Hn|lia]. Qed.
  Lemma vol_diff j k : (j < n)%nat -> (p <= k)%nat -> (d + k < T)%nat -> Rabs (ewstd hv (x j) (d + k) - ewstd hv (sh j) k) <= M ^ 2 * b ^ (k + 1) / (2 * w).
  Proof.
    intros Hj Hp Hk. assert (A := HW j (d + k)%nat Hj ltac:(lia)). assert (B := HW' j k Hj Hp Hk). eapply Rle_trans; [apply Rge_le, (sqrt_close _ _ w W0 A B)|].
    unfold Rdiv. apply Rmult_le_compat_r; [apply Rlt_le, Rinv_0_lt_compat; lra|]. apply vol_drop; assumption.
  Qed.
  Let Z := M / w.
  Lemma Z1 k : (p <= k < T)%nat -> 1 <= Z.
  Proof. intros H. assert (A := Mw k H). unfold Z. apply Rmult_le_reg_r with w; [exact W0|]. unfold Rdiv. rewrite Rmult_assoc, Rinv_l by lra. lra. Qed.
  Lemma sr_le j i : (j < n)%nat -> (p + i < T)%nat -> Rabs (std_return hv p x j i) <= Z.
  Proof. intros Hj Hi. unfold std_return. apply abs_div_le; [exact W0|apply HW; [exact Hj|lia]|apply HX; assumption]. Qed.
  Lemma sr_le' j i : (j < n)%nat -> (d + (p + i) < T)%nat -> Rabs (std_return hv p sh j i) <= Z.
  Proof. intros Hj Hi. unfold std_return. apply abs_div_le; [exact W0|apply HW'; [exact Hj|lia|exact Hi]|apply HX; assumption]. Qed.
  Lemma sr_diff j i : (j < n)%nat -> (d + (p + i) < T)%nat -> Rabs (std_return hv p x j (d + i) - std_return hv p sh j i) <= Z ^ 3 / 2 * r ^ i.
  Proof.
    intros Hj Hi. unfold std_return. replace (p + (d + i))%nat with (d + (p + i))%nat by lia. fold (sh j (p + i)%nat).
    assert (A := HW j (d + (p + i))%nat Hj ltac:(lia)). assert (B := HW' j (p + i)%nat Hj ltac:(lia) Hi). assert (D := vol_diff j (p + i) Hj ltac:(lia) Hi).
    set (S := ewstd hv (x j) (d + (p + i))) in *. set (S' := ewstd hv (sh j) (p + i)) in *. assert (X : Rabs (sh j (p + i)%nat) <= M) by (apply HX; assumption). set (u := sh j (p + i)%nat) in *.
    replace (u / S - u / S') with (- u * (S - S') / (S * S')) by (field; lra). destruct rb as (R1 & R2 & R3). assert (M0 : w <= M) by (apply (Mw (p + i)); lia).
    eapply Rle_trans; [apply (abs_div_le _ _ (w * w) (M * (M ^ 2 * b ^ (p + i + 1) / (2 * w)))); [nra|nra|]|].
    - rewrite Rabs_mult, Rabs_Ropp. apply Rmult_le_compat; try apply Rabs_pos; assumption.
    - replace (M * (M ^ 2 * b ^ (p + i + 1) / (2 * w)) / (w * w)) with (Z ^ 3 / 2 * b ^ (p + i + 1)) by (unfold Z; field; lra).
      apply Rmult_le_compat_l; [assert (1 <= Z) by (apply (Z1 (p + i)); lia); assert (0 <= Z ^ 3) by (apply pow_le; lra); lra|].
      replace (p + i + 1)%nat with (i + (p + 1))%nat by lia. rewrite pow_add. assert (b ^ (p + 1) <= 1) by (rewrite <- (pow1 (p + 1)); apply pow_incr; lra). assert (0 < b ^ (p + 1)) by (apply pow_lt; lra).
      assert (b ^ i <= r ^ i) by (apply pow_incr; lra). assert (0 < b ^ i) by (apply pow_lt; lra). nra.
  Qed.
  Lemma prod_le u v : Rabs u <= Z -> Rabs v <= Z -> Rabs (u * v) <= Z ^ 2.
  Proof. intros H1 H2. rewrite Rabs_mult. replace (Z ^ 2) with (Z * Z) by ring. apply Rmult_le_compat; try apply Rabs_pos; assumption. Qed.
  Lemma mom_diff i a e : (a < n)%nat -> (e < n)%nat -> (d + (p + i) < T)%nat ->
    Rabs (std_moment hv hc p x (d + i) a e - std_moment hv hc p sh i a e) <= 3 * Z ^ 4 * INR (S i) * r ^ i.
  Proof.
    intros Ha He Hi. destruct rb as (R1 & R2 & R3). assert (ZZ : 1 <= Z) by (apply (Z1 (p + i)); lia). unfold std_moment. fold c.
    set (u := fun s => std_return hv p x a s * std_return hv p x e s). set (v := fun s => std_return hv p sh a s * std_return hv p sh e s).
    assert (T1 : Rabs (ewavg c u (d + i) - ewavg c (fun s => u (d + s)%nat) i) <= c ^ (i + 1) * (2 * Z ^ 2)).
    { apply ewavg_drop; [exact cb|]. intros s t Hs Ht. assert (A : Rabs (u s) <= Z ^ 2) by (apply prod_le; apply sr_le; auto; lia). assert (B : Rabs (u t) <= Z ^ 2) by (apply prod_le; apply sr_le; auto; lia).
      unfold Rminus. eapply Rle_trans; [apply Rabs_triang|]. rewrite Rabs_Ropp. lra. }
    assert (T2 : Rabs (ewavg c (fun s => u (d + s)%nat) i - ewavg c v i) <= Z ^ 4 * INR (S i) * r ^ i).
    { apply ewavg_tail; [exact cb|exact R3|apply pow_le; lra|]. intros s Hs. unfold u, v.
      assert (A := sr_diff a s Ha ltac:(lia)). assert (B := sr_diff e s He ltac:(lia)).
      assert (A1 := sr_le e (d + s) He ltac:(lia)). assert (B1 := sr_le' a s Ha ltac:(lia)).
      set (a1 := std_return hv p x a (d + s)) in *. set (e1 := std_return hv p x e (d + s)) in *. set (a2 := std_return hv p sh a s) in *. set (e2 := std_return hv p sh e s) in *.
      replace (a1 * e1 - a2 * e2) with ((a1 - a2) * e1 + a2 * (e1 - e2)) by ring. eapply Rle_trans; [apply Rabs_triang|]. rewrite !Rabs_mult.
      assert (F1 : Rabs (a1 - a2) * Rabs e1 <= Z ^ 3 / 2 * r ^ s * Z) by (apply Rmult_le_compat; try apply Rabs_pos; assumption).
      assert (F2 : Rabs a2 * Rabs (e1 - e2) <= Z * (Z ^ 3 / 2 * r ^ s)) by (apply Rmult_le_compat; try apply Rabs_pos; assumption).
      replace (Z ^ 4 * r ^ s) with (Z ^ 3 / 2 * r ^ s * Z + Z * (Z ^ 3 / 2 * r ^ s)) by field. lra. }
    replace (ewavg c u (d + i) - ewavg c v i) with ((ewavg c u (d + i) - ewavg c (fun s => u (d + s)%nat) i) + (ewavg c (fun s => u (d + s)%nat) i - ewavg c v i)) by ring.
    eapply Rle_trans; [apply Rabs_triang|]. assert (T3 : c ^ (i + 1) * (2 * Z ^ 2) <= 2 * Z ^ 4 * INR (S i) * r ^ i).
    { assert (I1 : 1 <= INR (S i)) by (change 1 with (INR 1); apply le_INR; lia). assert (c ^ (i + 1) <= r ^ i).
      { rewrite pow_add. assert (c ^ i <= r ^ i) by (apply pow_incr; lra). assert (0 < c ^ i) by (apply pow_lt; lra). simpl. nra. }
      assert (0 < c ^ (i + 1)) by (apply pow_lt; lra). assert (Z2 : 1 <= Z ^ 2) by nra. assert (Z4 : Z ^ 2 <= Z ^ 4 * INR (S i)). { replace (Z ^ 4) with (Z ^ 2 * Z ^ 2) by ring. assert (Z ^ 2 <= Z ^ 2 * Z ^ 2) by nra. assert (Z ^ 2 * Z ^ 2 * 1 <= Z ^ 2 * Z ^ 2 * INR (S i)) by (apply Rmult_le_compat_l; nra). lra. }
      replace (2 * Z ^ 4 * INR (S i) * r ^ i) with (r ^ i * (2 * (Z ^ 4 * INR (S i)))) by ring. apply Rmult_le_compat; lra. }
    lra.
  Qed.
  Lemma mom_le i a y : (a < n)%nat -> (forall s, (s <= i)%nat -> Rabs (std_return hv p y a s) <= Z) -> std_moment hv hc p y i a a <= Z ^ 2.
  Proof. intros Ha H. eapply Rle_trans; [apply Rle_abs|]. apply ewavg_abs; [exact cb|]. intros s Hs. apply prod_le; apply H; exact Hs. Qed.
  Lemma corr_le A B C : 0 < A -> 0 < B -> Rabs C <= sqrt A * sqrt B -> Rabs (C / (sqrt A * sqrt B)) <= 1.
  Proof.
    intros HA HB HC. assert (SA := sqrt_lt_R0 A HA). assert (SB := sqrt_lt_R0 B HB). set (S := sqrt A * sqrt B) in *. assert (0 < S) by (unfold S; nra).
    unfold Rdiv. rewrite Rabs_mult, Rabs_inv, (Rabs_right S) by lra. apply Rmult_le_reg_r with S; [lra|]. rewrite Rmult_assoc, Rinv_l by lra. lra.
  Qed.
  Definition corr_ (y : nat -> nat -> R) (i a e : nat) : R := std_moment hv hc p y i a e / (sqrt (std_moment hv hc p y i a a) * sqrt (std_moment hv hc p y i e e)).
  Theorem cov_diff i a e : (a < n)%nat -> (e < n)%nat -> (q <= i)%nat -> (d + (p + i) < T)%nat ->
    Rabs (ewstd hv (x a) (p + (d + i)) * ewstd hv (x e) (p + (d + i)) * corr_ x (d + i) a e - ewstd hv (sh a) (p + i) * ewstd hv (sh e) (p + i) * corr_ sh i a e) <= memory_left hv hc M w g i.
  Proof.
    intros Ha He Hq Hi. destruct rb as (R1 & R2 & R3). assert (ZZ : 1 <= Z) by (apply (Z1 (p + i)); lia). assert (MM : w <= M) by (apply (Mw (p + i)); lia).
    set (mu := 3 * Z ^ 4 * INR (S i) * r ^ i). set (Q := Z ^ 2). replace (p + (d + i))%nat with (d + (p + i))%nat by lia.
    assert (UP : forall j, (j < n)%nat -> g <= std_moment hv hc p x (d + i) j j <= Q) by (intros j Hj; split; [apply HG; lia|apply mom_le; auto; intros s Hs; apply sr_le; auto; lia]).
    assert (UP' : forall j, (j < n)%nat -> g <= std_moment hv hc p sh i j j <= Q) by (intros j Hj; split; [apply HG'; lia|apply mom_le; auto; intros s Hs; apply sr_le'; auto; lia]).
    assert (GQ : g <= Q) by (assert (A := UP a Ha); lra).
    assert (CS : forall y k u v, 0 < std_moment hv hc p y k u u -> 0 < std_moment hv hc p y k v v -> Rabs (std_moment hv hc p y k u v) <= sqrt (std_moment hv hc p y k u u) * sqrt (std_moment hv hc p y k v v)).
    { intros y k u v. apply (ewavg_cs c (fun s => std_return hv p y u s) (fun s => std_return hv p y v s) k cb). }
    assert (U1 := UP a Ha). assert (U2 := UP e He). assert (U3 := UP' a Ha). assert (U4 := UP' e He).
    assert (K : Rabs (corr_ x (d + i) a e - corr_ sh i a e) <= 2 * Q * mu / g ^ 2).
    { apply corr_close; auto; [apply CS; lra|..]; apply mom_diff; assumption. }
    assert (K1 : Rabs (corr_ sh i a e) <= 1) by (apply corr_le; try lra; apply CS; lra).
    set (C := corr_ x (d + i) a e) in *. set (C' := corr_ sh i a e) in *.
    assert (V1 := vol_diff a (p + i) Ha ltac:(lia) Hi). assert (V2 := vol_diff e (p + i) He ltac:(lia) Hi).
    assert (L1 : w <= ewstd hv (x a) (d + (p + i)) <= M) by (split; [apply HW; lia|apply vol_le; intros s Hs; apply HX; lia]).
    assert (L2 : w <= ewstd hv (x e) (d + (p + i)) <= M) by (split; [apply HW; lia|apply vol_le; intros s Hs; apply HX; lia]).
    assert (L3 : w <= ewstd hv (sh a) (p + i) <= M) by (split; [apply HW'; lia|apply vol_le; intros s Hs; apply HX; lia]).
    set (s1 := ewstd hv (x a) (d + (p + i))) in *. set (s2 := ewstd hv (x e) (d + (p + i))) in *. set (t1 := ewstd hv (sh a) (p + i)) in *. set (t2 := ewstd hv (sh e) (p + i)) in *.
    assert (BP : b ^ (p + i + 1) <= r ^ i).
    { replace (p + i + 1)%nat with (i + (p + 1))%nat by lia. rewrite pow_add. assert (b ^ (p + 1) <= 1) by (rewrite <- (pow1 (p + 1)); apply pow_incr; lra). assert (0 < b ^ (p + 1)) by (apply pow_lt; lra).
      assert (b ^ i <= r ^ i) by (apply pow_incr; lra). assert (0 < b ^ i) by (apply pow_lt; lra). nra. }
    assert (RI : 0 < r ^ i) by (apply pow_lt; lra). assert (I1 : 1 <= INR (S i)) by (change 1 with (INR 1); apply le_INR; lia).
    assert (VV : M ^ 2 * b ^ (p + i + 1) / (2 * w) <= M * Z / 2 * r ^ i).
    { replace (M ^ 2 * b ^ (p + i + 1) / (2 * w)) with (M * Z / 2 * b ^ (p + i + 1)) by (unfold Z; field; lra). apply Rmult_le_compat_l; [|exact BP]. assert (0 <= M * Z) by (apply Rmult_le_pos; lra). lra. }
    replace (s1 * s2 * C - t1 * t2 * C') with (s1 * s2 * (C - C') + ((s1 - t1) * s2 + t1 * (s2 - t2)) * C') by ring.
    eapply Rle_trans; [apply Rabs_triang|]. rewrite !Rabs_mult.
    assert (F1 : Rabs s1 * Rabs s2 * Rabs (C - C') <= M * M * (2 * Q * mu / g ^ 2)).
    { apply Rmult_le_compat; [apply Rmult_le_pos; apply Rabs_pos|apply Rabs_pos| |exact K]. rewrite (Rabs_right s1), (Rabs_right s2) by lra. apply Rmult_le_compat; lra. }
    assert (F2 : Rabs ((s1 - t1) * s2 + t1 * (s2 - t2)) * Rabs C' <= (M * Z / 2 * r ^ i * M + M * (M * Z / 2 * r ^ i)) * 1).
    { apply Rmult_le_compat; [apply Rabs_pos|apply Rabs_pos| |exact K1]. eapply Rle_trans; [apply Rabs_triang|]. rewrite !Rabs_mult, (Rabs_right s2), (Rabs_right t1) by lra.
      apply Rplus_le_compat; apply Rmult_le_compat; try apply Rabs_pos; lra. }
    apply Rle_trans with (M * M * (2 * Q * mu / g ^ 2) + (M * Z / 2 * r ^ i * M + M * (M * Z / 2 * r ^ i)) * 1); [lra|]. unfold memory_left. fold b c r. fold Z.
    replace (M * M * (2 * Q * mu / g ^ 2)) with (M ^ 2 * (6 * (Z ^ 6 / g ^ 2 * INR (S i) * r ^ i))) by (unfold Q, mu; field; lra).
    replace (7 * M ^ 2 * Z ^ 6 / g ^ 2 * INR (S i) * r ^ i) with (M ^ 2 * (7 * (Z ^ 6 / g ^ 2 * INR (S i) * r ^ i))) by (field; lra).
    replace ((M * Z / 2 * r ^ i * M + M * (M * Z / 2 * r ^ i)) * 1) with (M ^ 2 * (Z * r ^ i)) by field.
    assert (Y : Z * r ^ i <= Z ^ 6 / g ^ 2 * INR (S i) * r ^ i).
    { apply Rmult_le_compat_r; [lra|]. apply Rle_trans with (Z ^ 6 / g ^ 2 * 1).
      - rewrite Rmult_1_r. apply Rmult_le_reg_r with (g ^ 2); [nra|]. replace (Z ^ 6 / g ^ 2 * g ^ 2) with (Z ^ 2 * Q ^ 2) by (unfold Q; field; lra). assert (g ^ 2 <= Q ^ 2) by (apply pow_incr; lra). assert (Z <= Z ^ 2) by nra. apply Rmult_le_compat; nra.
      - apply Rmult_le_compat_l; [|exact I1]. apply Rlt_le, Rdiv_lt_0_compat; [apply pow_lt; lra|nra]. }
    rewrite <- Rmult_plus_distr_l. apply Rmult_le_compat_l; [apply pow2_ge_0|]. lra.
  Qed.
End Two.
