(** * The pipeline on finite data, in exact arithmetic: explicit form of the output. *)
From Coq Require Import String Reals Lra Psatz List Bool ZArith Arith Lia.
From Verif Require Import Num Py ListFacts Ewma EwmaTot EwmaPrefix EwmaEquiv XRFacts Spec EwmaReal EwmaTab.
Import ListNotations.
Local Open Scope R_scope.

(** ** Scalars *)
Lemma xpow_fin b n : xpow (Fin b) n = Fin (b ^ n).
Proof. induction n; simpl; auto. rewrite IHn. reflexivity. Qed.
Lemma xdiv_fin a d : d <> 0 -> xdiv (Fin a) (Fin d) = Fin (a / d).
Proof. intros; simpl. destruct (Req_EM_T d 0); [lra|auto]. Qed.
Lemma xmax_fin a b : xmax (Fin a) (Fin b) = Fin (Rmax a b).
Proof. unfold xmax; simpl. unfold Rmax. destruct (Rlt_dec a b), (Rle_dec a b); auto; f_equal; lra. Qed.
Lemma xmin_fin a b : xmin (Fin a) (Fin b) = Fin (Rmin a b).
Proof. unfold xmin; simpl. unfold Rmin. destruct (Rlt_dec b a), (Rle_dec a b); auto; f_equal; lra. Qed.
Lemma xsqrt_fin a : 0 <= a -> xsqrt (Fin a) = Fin (sqrt a).
Proof. intros; simpl. destruct (Rlt_dec a 0); [lra|auto]. Qed.

Lemma beta_of_fin h : 0 < h -> beta_of (Some (Fin h)) None = Ok (Fin (decay h)).
Proof.
  intros Hh. unfold beta_of, alpha_of, truthy. cbn [nis0 XR xis0]. destruct (Req_EM_T h 0); [lra|].
  cbn [bind nexp nln nadd nsub nopp ndiv n1 XR]. unfold xsub.
  cbn [xadd xln xopp]. destruct (Rlt_dec 0 (1 + 1)); [|lra]. cbn [xopp].
  rewrite xdiv_fin by auto. cbn [xexp xopp xadd]. f_equal. f_equal. unfold decay, Rpower.
  replace (- ln (1 + 1) / h) with (- / h * ln 2); [ring|]. replace 2 with (1 + 1) by ring. field; auto.
Qed.

Lemma upd_fin b mp c rc k e x :
  0 < b < 1 -> truthy c = option_map Fin rc ->
  upd (Fin b) mp c k (Fin e) (Fin x) = Fin (rupd b mp rc k e x).
Proof.
  intros Hb Hc. unfold upd, rupd. rewrite Hc. pose proof (den_ne b Hb k).
  destruct rc as [c'|]; cbn [option_map]; [destruct (mp + 1 <=? k)%nat|].
  all: unfold npclip; cbn [nadd nsub nmul ndiv nopp nmin nmax n1 npow XR]; rewrite xpow_fin;
    unfold xsub; cbn [xopp xmul xadd]; rewrite ?xmax_fin, ?xmin_fin; cbn [xopp xmul xadd];
    rewrite xdiv_fin by lra; cbn [xadd]; f_equal; unfold Rdiv, Rminus; ring.
Qed.

Lemma nst_fin b mp c rc u k :
  0 < b < 1 -> truthy c = option_map Fin rc ->
  nst (Fin b) mp c (fun s => Fin (u s)) k = Fin (rst b mp rc u k).
Proof.
  intros Hb Hc. induction k; simpl; auto. rewrite IHk. apply upd_fin; auto.
Qed.

Lemma truthy_none : truthy (N := XR) None = option_map Fin None.
Proof. reflexivity. Qed.

Definition sqo (rc : option R) : option R := option_map (fun c => c * c) rc.

Lemma truthy_some_ne (c : option xr) r : truthy c = Some (Fin r) -> r <> 0.
Proof.
  unfold truthy. destruct c as [x|]; [|discriminate]. destruct (nis0 (Num:=XR) x) eqn:E; [discriminate|].
  intros H; inversion H; subst. cbn in E. destruct (Req_EM_T r 0); [discriminate|auto].
Qed.

Lemma sqclip_fin c rc : truthy c = option_map Fin rc -> truthy (sqclip c) = option_map Fin (sqo rc).
Proof.
  intros H. unfold sqclip. rewrite H. destruct rc as [r|]; [|reflexivity].
  cbn [option_map sqo nmul XR xmul truthy nis0 xis0]. apply truthy_some_ne in H.
  destruct (Req_EM_T (r * r) 0); [exfalso; nra|reflexivity].
Qed.

Lemma okc_sqo c rc : truthy c = option_map Fin rc -> okc (sqo rc).
Proof.
  intros H. destruct rc as [r|]; simpl; auto. apply truthy_some_ne in H. nra.
Qed.

(** Adjusted return: return over volatility, clipped; 0 where undefined. *)
Definition clipR (rc : option R) (y : R) : R :=
  match rc with
  | Some c => Rmin (Rmax y (- Rabs c)) (Rabs c)
  | None => y
  end.
Definition radj (rc : option R) (x v : R) : R :=
  if Req_EM_T v 0 then
    if Req_EM_T x 0 then 0 else
    match rc with Some c => if Rlt_dec 0 x then Rabs c else - Rabs c | None => 0 end
  else clipR rc (x / v).
Definition dfb (x v : R) : bool :=
  if Req_EM_T v 0 then if Req_EM_T x 0 then false else true else true.

Lemma clip_core lo hi y : lo < hi ->
  (let x := if xltb (Fin y) (Fin lo) then Fin lo else Fin y in if xltb (Fin hi) x then Fin hi else x) =
  Fin (Rmin (Rmax y lo) hi).
Proof.
  intros H. cbn [xltb]. destruct (Rlt_dec y lo); cbn [xltb].
  - destruct (Rlt_dec hi lo); [lra|]. rewrite Rmax_right by lra. rewrite Rmin_left by lra. reflexivity.
  - destruct (Rlt_dec hi y); rewrite Rmax_left by lra; [rewrite Rmin_right by lra|rewrite Rmin_left by lra]; reflexivity.
Qed.

Lemma clip1_bounds c x : c <> 0 -> clip1 (N := XR) (Fin c) x =
  if xisnan x then x else
  let lo := Fin (- Rabs c) in let hi := Fin (Rabs c) in
  let x := if xltb x lo then lo else x in if xltb hi x then hi else x.
Proof.
  intros Hc. unfold clip1. cbn [nltb nopp nisnan XR xopp].
  unfold Rabs. change (xltb (Fin c) (Fin (- c))) with (if Rlt_dec c (- c) then true else false).
  destruct (Rcase_abs c), (Rlt_dec c (- c)); try lra; auto. rewrite Ropp_involutive. auto.
Qed.

Lemma clip1_fin c y : c <> 0 -> clip1 (N := XR) (Fin c) (Fin y) = Fin (clipR (Some c) y).
Proof.
  intros Hc. rewrite clip1_bounds by auto. cbn [xisnan]. pose proof (Rabs_pos_lt c Hc).
  apply clip_core. lra.
Qed.
Lemma clip1_pinf c : c <> 0 -> clip1 (N := XR) (Fin c) PInf = Fin (Rabs c).
Proof. intros Hc. rewrite clip1_bounds by auto. reflexivity. Qed.
Lemma clip1_ninf c : c <> 0 -> clip1 (N := XR) (Fin c) NInf = Fin (- Rabs c).
Proof.
  intros Hc. rewrite clip1_bounds by auto. cbn [xisnan xltb]. cbv zeta. cbn [xltb].
  pose proof (Rabs_pos_lt c Hc). destruct (Rlt_dec (Rabs c) (- Rabs c)); [lra|reflexivity].
Qed.

Definition clipx (c : option xr) (y : xr) : xr := match truthy c with Some c => clip1 c y | None => y end.

Lemma clipx_div c rc x v :
  truthy c = option_map Fin rc -> (rc = None -> v = 0 -> x = 0) ->
  clipx c (xdiv (Fin x) (Fin v)) = if dfb x v then Fin (radj rc x v) else NaN.
Proof.
  intros Hc Hn. unfold clipx. rewrite Hc. unfold radj, dfb. cbn [xdiv].
  destruct (Req_EM_T v 0) as [Hv|Hv].
  - unfold inf_sgn. destruct rc as [c'|]; cbn [option_map].
    + apply truthy_some_ne in Hc. destruct (Req_EM_T x 0) as [Hx|Hx].
      * destruct (Rlt_dec 0 x); [lra|]. destruct (Rlt_dec x 0); [lra|]. reflexivity.
      * destruct (Rlt_dec 0 x); [apply clip1_pinf; auto|]. destruct (Rlt_dec x 0); [|lra].
        apply clip1_ninf; auto.
    + rewrite (Hn eq_refl Hv) in *. destruct (Rlt_dec 0 0); [lra|]. destruct (Req_EM_T 0 0); [auto|lra].
  - destruct rc as [c'|]; cbn [option_map]; auto. apply truthy_some_ne in Hc. apply clip1_fin; auto.
Qed.

Lemma radj_zero rc x v :
  (forall c, rc = Some c -> c <> 0) -> (rc = None -> v = 0 -> x = 0) -> 0 <= v ->
  (radj rc x v = 0 <-> x = 0).
Proof.
  intros Hc Hn Hv0. unfold radj. destruct (Req_EM_T v 0) as [Hv|Hv].
  - destruct (Req_EM_T x 0); [tauto|]. destruct rc as [c|]; [|exfalso; auto].
    pose proof (Hc c eq_refl). pose proof (Rabs_pos_lt c H). destruct (Rlt_dec 0 x); split; lra.
  - assert (Hx : x / v = 0 <-> x = 0).
    { split; intros E; [|subst; unfold Rdiv; ring]. replace x with (x / v * v) by (field; auto). rewrite E; ring. }
    destruct rc as [c|]; simpl; auto. pose proof (Rabs_pos_lt c (Hc c eq_refl)).
    rewrite <- Hx. unfold Rmin, Rmax.
    destruct (Rle_dec (x / v) (- Rabs c)); destruct (Rle_dec _ (Rabs c)); split; lra.
Qed.

(** ** Frames *)
Definition ffin (idx : list time) (cols : list string) (x : nat -> nat -> R) : frame time :=
  ftab idx cols (fun j k => Fin (x j k)).

Lemma alln_fin n (x : nat -> nat -> R) k : (0 < n)%nat -> alln (N := XR) n (fun j k => Fin (x j k)) k = false.
Proof. destruct n; [lia|]. reflexivity. Qed.
Lemma alln_ext {N : Num} n u v k : (forall j, (j < n)%nat -> u j k = v j k) -> alln n u k = alln n v k.
Proof. intros H; apply forallb_ext_in; intros j Hj; apply in_seq in Hj; rewrite H; auto; lia. Qed.
Lemma alln_nan n u k : (forall j, (j < n)%nat -> u j k = NaN) -> alln (N := XR) n u k = true.
Proof. intros H; apply forallb_forall; intros j Hj; apply in_seq in Hj; rewrite H; auto; lia. Qed.

Lemma xmul_nan x : xmul x NaN = NaN.
Proof. destruct x; auto. Qed.

Definition late (mp T : nat) : list nat := filter (fun k => mp <=? k + 1)%nat (seq 0 T).

Lemma meanf_ffin b mp c rc idx cols x :
  0 < b < 1 -> truthy c = option_map Fin rc -> (0 < length cols)%nat ->
  meanf_tot (Fin b) mp c (ffin idx cols x) =
  ptab idx cols (fun j k => Fin (rst b mp rc (x j) k)) (late mp (length idx)).
Proof.
  intros Hb Hc Hn. unfold ffin. rewrite meanf_ftab.
  assert (E : filter (fun k => negb (alln (length cols) (fun j k => msk mp k (nst (Fin b) mp c (fun k0 => Fin (x j k0)) k)) k))
                (seq 0 (length idx)) = late mp (length idx)).
  { apply filter_ext. intros k. unfold msk. destruct (Nat.leb_spec mp (k + 1)).
    - rewrite (alln_ext _ _ (fun j k => Fin (rst b mp rc (x j) k))).
      + rewrite alln_fin; auto.
      + intros j Hj. destruct (Nat.ltb_spec (k + 1) mp); [lia|]. apply nst_fin; auto.
    - rewrite alln_nan; auto. intros j Hj. destruct (Nat.ltb_spec (k + 1) mp); [|lia]. apply xmul_nan. }
  rewrite E. apply ptab_ext. intros j k Hj Hk. unfold late in Hk. apply filter_In in Hk. destruct Hk as [_ Hk].
  apply Nat.leb_le in Hk. unfold msk. destruct (Nat.ltb_spec (k + 1) mp); [lia|]. apply nst_fin; auto.
Qed.

Lemma late_lt mp T q : In q (late mp T) -> (q < T)%nat.
Proof. intros H. apply filter_In in H. destruct H as [H _]. apply in_seq in H; lia. Qed.
Lemma late_0 T : late 0 T = seq 0 T.
Proof. apply filter_all; auto. Qed.
Lemma late_1 T : late 1 T = seq 0 T.
Proof. apply filter_all; intros; apply Nat.leb_le; lia. Qed.
Lemma late_spec mp T : late mp T = seq (mp - 1) (T - (mp - 1)).
Proof.
  unfold late. destruct (le_lt_dec (mp - 1) T).
  - replace T with ((mp - 1) + (T - (mp - 1)))%nat at 1 by lia.
    rewrite seq_app, filter_app, filter_none, filter_all; auto.
    + intros k Hk. apply in_seq in Hk. apply Nat.leb_le; lia.
    + intros k Hk. apply in_seq in Hk. apply Nat.leb_gt; lia.
  - rewrite filter_none; [replace (T - (mp - 1))%nat with 0%nat by lia; auto|].
    intros k Hk. apply in_seq in Hk. apply Nat.leb_gt; lia.
Qed.
Lemma existsb_late mp T k : (k < T)%nat -> existsb (Nat.eqb k) (late mp T) = (mp <=? k + 1)%nat.
Proof.
  intros Hk. apply eq_true_iff_eq. rewrite existsb_eqb_In. unfold late. rewrite filter_In, in_seq. split; [tauto|].
  intros; split; auto; lia.
Qed.

(** center *)
Definition cen (m : bool) (b : R) (x : nat -> nat -> R) : nat -> nat -> R :=
  fun j k => if m then x j k - ewavg b (x j) k else x j k.

Lemma center_ffin b m idx cols x :
  (m = true -> 0 < b < 1) -> (0 < length cols)%nat -> NoDup idx ->
  fst (center_tot (Fin b) m (ffin idx cols x)) = ffin idx cols (cen m b x) /\
  (m = true -> snd (center_tot (Fin b) m (ffin idx cols x)) = ffin idx cols (fun j k => ewavg b (x j) k)).
Proof.
  intros Hb Hn Hd. destruct m; [|split; [reflexivity|discriminate]]. specialize (Hb eq_refl).
  assert (E : meanf_tot (Fin b) 0 None (ffin idx cols x) = ffin idx cols (fun j k => ewavg b (x j) k)).
  { rewrite (meanf_ffin b 0 None None); auto. rewrite late_0. unfold ffin. rewrite ftab_ptab.
    apply ptab_ext. intros; rewrite rst_closed; auto. }
  unfold center_tot; cbn [fst snd]. split; auto. rewrite E.
  unfold ffin. rewrite !ftab_ptab, falign_ptab; auto; try (intros q Hq; apply in_seq in Hq; lia).
  rewrite dropna_ptab.
  assert (E2 : forall k, In k (seq 0 (length idx)) -> existsb (Nat.eqb k) (seq 0 (length idx)) = true)
    by (intros; apply existsb_eqb_In; auto).
  rewrite filter_all.
  - apply ptab_ext. intros j k Hj Hk. rewrite E2 by auto. reflexivity.
  - intros k Hk. rewrite (alln_ext _ _ (fun j k => Fin (cen true b x j k))).
    + rewrite alln_fin; auto.
    + intros j Hj. rewrite E2; auto.
Qed.

(** volatility *)
Definition rvol (b : R) (mp : nat) (rc : option R) (u : nat -> R) (k : nat) : R :=
  sqrt (rst b mp (sqo rc) (fun s => u s * u s) k).

Lemma vola_ffin b mp c rc idx cols x :
  0 < b < 1 -> truthy c = option_map Fin rc -> (0 < length cols)%nat ->
  vola_tot (Fin b) mp c (ffin idx cols x) =
  ptab idx cols (fun j k => Fin (rvol b mp rc (x j) k)) (late mp (length idx)).
Proof.
  intros Hb Hc Hn. unfold vola_tot, ffin. rewrite fmap_ftab.
  change (ftab idx cols (fun j k => nmul (Fin (x j k)) (Fin (x j k)))) with (ffin idx cols (fun j k => x j k * x j k)).
  rewrite (meanf_ffin b mp (sqclip c) (sqo rc)); auto using sqclip_fin.
  unfold fmap, ptab; cbn [findex fcols fvals]. f_equal. rewrite map_map. apply map_ext; intros k.
  rewrite map_trow. apply trow_ext; intros j Hj. cbn [nsqrt XR]. apply xsqrt_fin.
  apply rst_nonneg; auto. eapply okc_sqo; eauto. intros; nra.
Qed.

Lemma rvol_nonneg b mp rc u k : 0 <= rvol b mp rc u k.
Proof. apply sqrt_pos. Qed.

Lemma rvol_zero_none b mp u k : 0 < b < 1 -> (rvol b mp None u k = 0 <-> forall s, (s <= k)%nat -> u s = 0).
Proof.
  intros Hb. unfold rvol. simpl sqo.
  assert (Hs : forall s, 0 <= u s * u s) by (intros; nra).
  pose proof (rst_zero_none b Hb mp _ k Hs) as HZ.
  split.
  - intros H. apply sqrt_eq_0 in H; [|apply rst_nonneg; simpl; auto].
    intros s Hle. pose proof (proj1 HZ H s Hle). nra.
  - intros H. rewrite (proj2 HZ); [apply sqrt_0|]. intros s Hle. rewrite H; auto; ring.
Qed.

Lemma all_nan_mtab_false {N : Num} n (m : nat -> nat -> num) :
  (0 < n)%nat -> nisnan (m 0%nat 0%nat) = false -> all_nan_mat (mtab n m) = false.
Proof. destruct n; [lia|]. intros _ H. unfold mtab. simpl. rewrite H. reflexivity. Qed.

(** ** The whole pipeline *)

(** Half-lives and clip level of a parameter record, as positive reals / a non-zero real. *)
Record usable (P : params (N := XR)) (hv hc h1 h2 : R) (rc : option R) : Prop := {
  us_v : vola_halflife P = Some (Fin hv) /\ 0 < hv;
  us_c : cov_halflife P = Some (Fin hc) /\ 0 < hc;
  us_1 : or_else (mu_halflife1 P) (vola_halflife P) = Some (Fin h1) /\ 0 < h1;
  us_2 : or_else (mu_halflife2 P) (cov_halflife P) = Some (Fin h2) /\ 0 < h2;
  us_clip : truthy (p_clip_at P) = option_map Fin rc
}.

Section Pipe.
  Variables (P : params (N := XR)) (hv hc h1 h2 : R) (rc : option R).
  Hypothesis HU : usable P hv hc h1 h2 rc.
  Variables (idx : list time) (cols : list string) (x : nat -> nat -> R).
  Hypothesis Hn : (0 < length cols)%nat.
  Hypothesis Hd : NoDup idx.

  Let bv := decay hv. Let bc := decay hc. Let b1 := decay h1. Let b2 := decay h2.
  Let n := length cols. Let T := length idx.

  (** Centred returns, volatilities. *)
  Definition py : nat -> nat -> R := cen (use_mean P) b1 x.
  Definition pv : nat -> nat -> R := fun j k => rvol bv (min_periods_vola P) rc (py j) k.
  (** Positions that survive: those with a volatility and at least one defined adjusted return. *)
  Definition kp : list nat :=
    filter (fun k => (min_periods_vola P <=? k + 1)%nat && existsb (fun j => dfb (py j k) (pv j k)) (seq 0 n))
      (seq 0 T).
  Definition kpos (i : nat) : nat := nth i kp 0%nat.
  (** Adjusted returns by surviving row, before and after the second centring. *)
  Definition pa0 : nat -> nat -> R := fun j i => radj rc (py j (kpos i)) (pv j (kpos i)).
  Definition pa : nat -> nat -> R := cen (use_mean P) b2 pa0.

  Lemma hb_v : 0 < bv < 1. Proof. apply decay_bounds, HU. Qed.
  Lemma hb_c : 0 < bc < 1. Proof. apply decay_bounds, HU. Qed.
  Lemma hb_1 : 0 < b1 < 1. Proof. apply decay_bounds, HU. Qed.
  Lemma hb_2 : 0 < b2 < 1. Proof. apply decay_bounds, HU. Qed.
  Lemma rc_ne c : rc = Some c -> c <> 0.
  Proof. intros E. pose proof (us_clip _ _ _ _ _ _ HU) as H. rewrite E in H. eapply truthy_some_ne; eauto. Qed.

  Lemma pv_nonneg j k : 0 <= pv j k. Proof. apply rvol_nonneg. Qed.
  Lemma pv_zero_none j k : rc = None -> pv j k = 0 -> py j k = 0.
  Proof.
    intros E H. unfold pv in H. rewrite E in H. exact (proj1 (rvol_zero_none _ _ _ _ hb_v) H k (le_n k)).
  Qed.

  Lemma kp_lt k : In k kp -> (k < T)%nat.
  Proof. intros H. apply filter_In in H. destruct H as [H _]. apply in_seq in H; lia. Qed.
  Lemma kp_nodup : NoDup kp.
  Proof. apply NoDup_filter, seq_NoDup. Qed.
  Lemma kp_late k : In k kp -> (min_periods_vola P <= k + 1)%nat.
  Proof. intros H. apply filter_In in H. destruct H as [_ H]. apply andb_true_iff in H. apply Nat.leb_le, H. Qed.
  Lemma kpos_In i : (i < length kp)%nat -> In (kpos i) kp.
  Proof. intros; apply nth_In; auto. Qed.
  Lemma kp_tm_nodup : NoDup (map (tm idx) kp).
  Proof.
    apply NoDup_map_on; auto using kp_nodup.
    intros a b Ha Hb E. eapply (proj1 (NoDup_nth idx 0%Z)); eauto; apply kp_lt; auto.
  Qed.

  Lemma prep_ffin : prep P (ffin idx cols x) = ffin idx cols x.
  Proof. unfold prep. destruct (nan_to_num P); auto. unfold ffillna0, ffin. rewrite fmap_ftab. reflexivity. Qed.

  Lemma ret_ffin : ret_tot (Fin b1) P (ffin idx cols x) = ffin idx cols py.
  Proof.
    unfold ret_tot. rewrite prep_ffin. apply center_ffin; auto. intros; apply hb_1.
  Qed.
  Lemma retmean_ffin : use_mean P = true ->
    retmean_tot (Fin b1) P (ffin idx cols x) = ffin idx cols (fun j k => ewavg b1 (x j) k).
  Proof.
    intros E. unfold retmean_tot. rewrite prep_ffin. apply center_ffin; auto. intros; apply hb_1.
  Qed.
  Lemma volaf_ffin : volaf_tot (Fin b1) (Fin bv) P (ffin idx cols x) =
    ptab idx cols (fun j k => Fin (pv j k)) (late (min_periods_vola P) T).
  Proof.
    unfold volaf_tot. rewrite ret_ffin. apply vola_ffin; auto using hb_v. apply HU.
  Qed.

  (** Before the NaN are filled. *)
  Lemma adj_raw : clip (falign ndiv (ret_tot (Fin b1) P (ffin idx cols x)) (volaf_tot (Fin b1) (Fin bv) P (ffin idx cols x))) (p_clip_at P) =
    ftab (map (tm idx) kp) cols (fun j i => if dfb (py j (kpos i)) (pv j (kpos i)) then Fin (pa0 j i) else NaN).
  Proof.
    rewrite volaf_ffin, ret_ffin. unfold ffin at 1.
    rewrite (ftab_ptab idx cols). rewrite falign_ptab; auto.
    2:{ intros q Hq; apply in_seq in Hq; lia. }
    2:{ intros q Hq; eapply late_lt; eauto. }
    assert (E : forall u ks, clip (ptab idx cols u ks) (p_clip_at P) =
              fdropna_all (ptab idx cols (fun j k => clipx (p_clip_at P) (u j k)) ks)).
    { intros u ks. unfold clip, clipx. destruct (truthy (p_clip_at P)); auto.
      unfold fmap, ptab; cbn [findex fcols fvals]. rewrite map_map. f_equal. f_equal.
      apply map_ext; intros k. apply map_trow. }
    rewrite E, dropna_ptab.
    assert (EV : forall j k, (k < T)%nat ->
      clipx (p_clip_at P) (if existsb (Nat.eqb k) (late (min_periods_vola P) T)
                           then ndiv (Fin (py j k)) (Fin (pv j k)) else nnan) =
      if (min_periods_vola P <=? k + 1)%nat && dfb (py j k) (pv j k) then Fin (radj rc (py j k) (pv j k)) else NaN).
    { intros j k Hk. rewrite existsb_late by auto. destruct (min_periods_vola P <=? k + 1)%nat; cbn [andb].
      - apply clipx_div; [apply HU|]. intros; apply pv_zero_none; auto.
      - unfold clipx. destruct (truthy (p_clip_at P)); auto. }
    match goal with |- context [filter ?p ?l] => assert (EK : filter p l = kp) end.
    { apply filter_ext_in. intros k Hk. apply in_seq in Hk. fold n. unfold alln.
      destruct (min_periods_vola P <=? k + 1)%nat eqn:E1; cbn [andb].
      - apply eq_true_iff_eq. rewrite negb_true_iff. rewrite existsb_exists.
        split.
        + intros H. apply not_true_iff_false in H.
          destruct (existsb (fun j => dfb (py j k) (pv j k)) (seq 0 n)) eqn:E2.
          * apply existsb_exists in E2. exact E2.
          * exfalso. apply H. apply forallb_forall. intros j Hj. rewrite EV by (fold T in Hk; lia).
            rewrite E1. cbn [andb].
            destruct (dfb (py j k) (pv j k)) eqn:E3; auto. exfalso.
            assert (existsb (fun j => dfb (py j k) (pv j k)) (seq 0 n) = true) by (apply existsb_exists; eauto).
            congruence.
        + intros (j & Hj & E2). apply not_true_iff_false. intros H.
          rewrite forallb_forall in H. specialize (H j Hj). rewrite EV in H by (fold T in Hk; lia).
          rewrite E1, E2 in H. discriminate.
      - rewrite (proj2 (forallb_forall _ _)); auto. intros j Hj. rewrite EV by (fold T in Hk; lia).
        rewrite E1. reflexivity. }
    rewrite EK, ptab_ftab. apply ftab_ext.
    intros j i Hj Hi. rewrite map_length in Hi. fold (kpos i). pose proof (kpos_In i Hi) as Hin.
    rewrite EV by (apply kp_lt; auto). apply kp_late, Nat.leb_le in Hin. rewrite Hin. reflexivity.
  Qed.

  Lemma adj0_ffin : adj0_tot (Fin b1) (Fin bv) P (ffin idx cols x) = ffin (map (tm idx) kp) cols pa0.
  Proof.
    unfold adj0_tot, adjusted. rewrite adj_raw. unfold ffillna0, ffin. rewrite fmap_ftab. apply ftab_ext. intros j i Hj Hi.
    unfold pa0. destruct (dfb (py j (kpos i)) (pv j (kpos i))) eqn:E3; [reflexivity|].
    cbn [nisnan XR xisnan n0]. f_equal. unfold dfb in E3. unfold radj.
    destruct (Req_EM_T (pv j (kpos i)) 0); [|discriminate].
    destruct (Req_EM_T (py j (kpos i)) 0); [auto|discriminate].
  Qed.

  Lemma adj_ffin : adj_tot (Fin b1) (Fin bv) (Fin b2) P (ffin idx cols x) = ffin (map (tm idx) kp) cols pa.
  Proof.
    unfold adj_tot. rewrite adj0_ffin. apply center_ffin; auto using kp_tm_nodup. intros; apply hb_2.
  Qed.
  Lemma adjmean_ffin : use_mean P = true ->
    adjmean_tot (Fin b1) (Fin bv) (Fin b2) P (ffin idx cols x) =
    ffin (map (tm idx) kp) cols (fun j i => ewavg b2 (pa0 j) i).
  Proof.
    intros E. unfold adjmean_tot. rewrite adj0_ffin. apply center_ffin; auto using kp_tm_nodup. intros; apply hb_2.
  Qed.

  (** EWMA second moments of the adjusted returns. *)
  Definition pc (i p q : nat) : R := ewavg bc (fun s => pa p s * pa q s) i.

  (** Covariance entry reported for surviving row i. *)
  Definition pcov (i p q : nat) : xr :=
    if Req_EM_T (pc i p p) 0 then NaN else if Req_EM_T (pc i q q) 0 then NaN else
    Fin (pv p (kpos i) * (pc i p q / (sqrt (pc i p p) * sqrt (pc i q q))) * pv q (kpos i)).

  Definition pitem (i : nat) : IEWMA :=
    mkIEWMA (tm idx (kpos i))
      (if use_mean P
       then map (fun j => Fin (ewavg b1 (x j) (kpos i) + pv j (kpos i) * ewavg b2 (pa0 j) i)) (seq 0 n)
       else map (fun _ => Fin 0) cols)
      (mkFrame cols cols (mtab n (pcov i)))
      (map (fun j => Fin (pv j (kpos i))) (seq 0 n)).

  Lemma cst_fin i p q : cst (N := XR) (Fin bc) (min_periods_cov P) (fun j k => Fin (pa j k)) i p q = Fin (pc i p q).
  Proof.
    unfold cst. change (fun s => nmul (Fin (pa p s)) (Fin (pa q s))) with (fun s => Fin (pa p s * pa q s)).
    rewrite (nst_fin bc _ None None) by auto using hb_c. rewrite rst_closed by apply hb_c. reflexivity.
  Qed.

  Lemma loc0_ffin_kp u i : (i < length kp)%nat ->
    loc0 (ffin (map (tm idx) kp) cols u) (tm idx (kpos i)) = map (fun j => Fin (u j i)) (seq 0 n).
  Proof.
    intros Hi. unfold loc0.
    assert (E : tm idx (kpos i) = tm (map (tm idx) kp) i).
    { unfold tm at 2. rewrite (nth_map_lt _ kp i 0%nat) by auto. reflexivity. }
    rewrite E. unfold ffin. rewrite ftab_ptab, floc_ptab; auto using kp_tm_nodup.
    - rewrite (proj2 (existsb_eqb_In _ _)); [reflexivity|]. apply in_seq. rewrite map_length. lia.
    - intros q Hq; apply in_seq in Hq; lia.
    - rewrite map_length; auto.
  Qed.
  Lemma loc0_ffin_idx u k : (k < T)%nat ->
    loc0 (ffin idx cols u) (tm idx k) = map (fun j => Fin (u j k)) (seq 0 n).
  Proof.
    intros Hk. unfold loc0, ffin. rewrite ftab_ptab, floc_ptab; auto.
    - rewrite (proj2 (existsb_eqb_In _ _)); [reflexivity|]. apply in_seq; lia.
    - intros q Hq; apply in_seq in Hq; lia.
  Qed.

  Lemma inv_vol_fin d : 0 <= d -> inv_vol (N := XR) (Fin d) = if Req_EM_T d 0 then NaN else Fin (/ sqrt d).
  Proof.
    intros H. unfold inv_vol. cbn [nis0 XR xis0 nnan ndiv nsqrt n1]. destruct (Req_EM_T d 0); auto.
    rewrite xsqrt_fin by auto. rewrite xdiv_fin.
    - f_equal. unfold Rdiv; ring.
    - apply Rgt_not_eq. apply sqrt_lt_R0. lra.
  Qed.

  Lemma pc_nonneg i p : 0 <= pc i p p.
  Proof. apply ewavg_nonneg; [apply hb_c|]. intros; nra. Qed.

  Theorem it_ffin : it_tot (Fin b1) (Fin bv) (Fin b2) (Fin bc) P (ffin idx cols x) =
    map pitem (late (min_periods_cov P) (length kp)).
  Proof.
    unfold it_tot. rewrite adj_ffin. unfold ffin at 5. rewrite cov_ftab, map_length. fold n.
    match goal with |- context [filter ?p ?l] => assert (EK : filter p l = late (min_periods_cov P) (length kp)) end.
    { apply filter_ext_in. intros i Hi. apply in_seq in Hi.
      destruct (Nat.leb_spec (min_periods_cov P) (i + 1)).
      - rewrite all_nan_mtab_false; auto. unfold msk.
        destruct (Nat.ltb_spec (i + 1) (min_periods_cov P)); [lia|]. rewrite cst_fin. reflexivity.
      - apply negb_false_iff. unfold all_nan_mat, all_nan, mtab. rewrite forallb_map. apply forallb_forall.
        intros p Hp. rewrite forallb_map. apply forallb_forall. intros q Hq. unfold msk.
        destruct (Nat.ltb_spec (i + 1) (min_periods_cov P)); [|lia]. cbn [nmul nnan XR]. rewrite xmul_nan. reflexivity. }
    rewrite EK, map_map. apply map_ext_in. intros i Hi.
    assert (Hil : (i < length kp)%nat) by (eapply late_lt; eauto).
    assert (Him : (min_periods_cov P <= i + 1)%nat) by (apply filter_In in Hi; destruct Hi as [_ Hi]; apply Nat.leb_le; auto).
    assert (Et : tm (map (tm idx) kp) i = tm idx (kpos i)).
    { unfold tm at 1. rewrite (nth_map_lt _ kp i 0%nat) by auto. reflexivity. }
    rewrite Et. unfold item, pitem. cbn [fst snd].
    assert (Ev : loc0 (volaf_tot (Fin b1) (Fin bv) P (ffin idx cols x)) (tm idx (kpos i)) =
                 map (fun j => Fin (pv j (kpos i))) (seq 0 n)).
    { rewrite volaf_ffin. unfold loc0. rewrite floc_ptab; auto.
      - rewrite existsb_late by (apply kp_lt, kpos_In; auto).
        rewrite (proj2 (Nat.leb_le _ _)) by (apply kp_late, kpos_In; auto). reflexivity.
      - intros q Hq; eapply late_lt; eauto.
      - apply kp_lt, kpos_In; auto. }
    rewrite Ev. f_equal.
    - destruct (use_mean P) eqn:Em.
      + rewrite retmean_ffin, adjmean_ffin by auto.
        rewrite loc0_ffin_idx by (apply kp_lt, kpos_In; auto). rewrite loc0_ffin_kp by auto.
        unfold scale_mean. rewrite !map2_self. reflexivity.
      + rewrite ret_ffin. reflexivity.
    - set (vola := map (fun j => Fin (pv j (kpos i))) (seq 0 n)).
      assert (L : length vola = n) by (unfold vola; rewrite map_length, seq_length; auto).
      unfold scale_cov at 1. cbn [findex fcols].
      match goal with |- mkFrame _ _ ?v = _ =>
        change v with (fvals (scale_cov vola (mkFrame cols cols (mtab n (fun i0 j : nat => msk (min_periods_cov P) i
           (cst (Fin bc) (min_periods_cov P) (fun j0 k : nat => Fin (pa j0 k)) i i0 j)))))) end.
      rewrite scale_cov_mtab by auto. f_equal. apply mtab_ext. intros p q Hp Hq.
      unfold msk. destruct (Nat.ltb_spec (i + 1) (min_periods_cov P)); [lia|]. rewrite !cst_fin.
      unfold vola. rewrite !(nth_map_lt _ _ _ 0%nat) by (rewrite seq_length; auto). rewrite !nth_seq0 by auto.
      rewrite !inv_vol_fin by apply pc_nonneg. unfold pcov. cbn [nmul XR].
      destruct (Req_EM_T (pc i p p) 0); [cbn [xmul]; reflexivity|].
      destruct (Req_EM_T (pc i q q) 0); [cbn [xmul]; reflexivity|]. cbn [xmul]. f_equal.
      pose proof (pc_nonneg i p). pose proof (pc_nonneg i q).
      assert (0 < sqrt (pc i p p)) by (apply sqrt_lt_R0; lra).
      assert (0 < sqrt (pc i q q)) by (apply sqrt_lt_R0; lra). field. lra.
  Qed.

  Theorem iterated_ewma_ffin :
    iterated_ewma P (ffin idx cols x) =
    if isnil kp then Raise IndexError else Ok (map pitem (late (min_periods_cov P) (length kp))).
  Proof.
    rewrite (iterated_ewma_eq P _ (Fin b1) (Fin bv) (Fin b2) (Fin bc)).
    - rewrite adj_ffin, it_ffin. cbn [ffin ftab fvals]. rewrite map_length. unfold tabl.
      rewrite isnil_map. destruct kp; reflexivity.
    - reflexivity.
    - apply ftab_good; auto.
    - intros _. destruct (us_1 _ _ _ _ _ _ HU) as [-> H]. apply beta_of_fin; auto.
    - destruct (us_v _ _ _ _ _ _ HU) as [-> H]. apply beta_of_fin; auto.
    - intros _. destruct (us_2 _ _ _ _ _ _ HU) as [-> H]. apply beta_of_fin; auto.
    - destruct (us_c _ _ _ _ _ _ HU) as [-> H]. apply beta_of_fin; auto.
  Qed.
End Pipe.
