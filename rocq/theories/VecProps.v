(** * Facts about iterated_ewma_vec.py in exact arithmetic. *)
From Coq Require Import String Reals Lra Psatz List Bool ZArith Arith Lia.
From Verif Require Import Num Py ListFacts Ewma EwmaTot EwmaPrefix EwmaEquiv XRFacts Spec SpecEwma EwmaReal EwmaTab EwmaFin EwmaProps EwmaClosed VecEwma SpecVec.
Import ListNotations.
Local Open Scope R_scope.

Lemma limited_rst h mp rc u k : 0 < h -> limited_avg h mp rc u k = rst (decay h) mp rc u k.
Proof.
  intros Hh. pose proof (decay_bounds h Hh) as Hb. induction k; [reflexivity|].
  cbn [limited_avg rst]. rewrite IHk, eweight_wnew by auto. set (e := rst _ _ _ _ k).
  destruct rc as [c|].
  - destruct (Nat.leb_spec (S k) mp); [rewrite rupd_early by (auto; lia)|rewrite rupd_clip by (auto; lia)]; reflexivity.
  - rewrite rupd_none by auto. reflexivity.
Qed.

Lemma limited_none h mp u k : 0 < h -> limited_avg h mp None u k = ewavg (decay h) u k.
Proof. intros Hh. rewrite limited_rst by auto. apply rst_closed, decay_bounds; auto. Qed.
Lemma limited_early h mp c u k : 0 < h -> (k <= mp)%nat -> limited_avg h mp (Some c) u k = ewavg (decay h) u k.
Proof. intros Hh Hk. rewrite limited_rst by auto. apply rst_early; auto. apply decay_bounds; auto. Qed.

(** Weights *)
Lemma old_weight_fin b t : 0 < b < 1 -> (1 <= t)%nat -> old_weight (Fin b) (t + 1) = Fin (1 - wnew b t).
Proof.
  intros Hb Ht. unfold old_weight. cbn [nsub ndiv n1 npow XR]. rewrite xpow_fin. unfold xsub. cbn [xopp xadd].
  pose proof (den_ne b Hb t). rewrite xdiv_fin by lra. f_equal. unfold wnew. field. lra.
Qed.
Lemma new_weight_fin b t : 0 < b < 1 -> new_weight (Fin b) (t + 1) = Fin (wnew b t).
Proof.
  intros Hb. unfold new_weight. cbn [nsub ndiv n1 npow XR]. rewrite xpow_fin. unfold xsub. cbn [xopp xadd].
  pose proof (den_ne b Hb t). rewrite xdiv_fin by lra. reflexivity.
Qed.

Lemma array_ext r c m m' : (forall i j, (i < r)%nat -> (j < c)%nat -> m i j = m' i j) -> array r c m = array r c m'.
Proof.
  intros H; unfold array; apply map_ext_in; intros i Hi; apply map_ext_in; intros j Hj. apply in_seq in Hi, Hj. rewrite H; auto; lia.
Qed.
Lemma mmap2_array (g : xr -> xr -> xr) (f : R -> R -> R) r c a b : (forall x y, g (Fin x) (Fin y) = Fin (f x y)) ->
  mmap2 (N := XR) g (array r c a) (array r c b) = array r c (fun i j => f (a i j) (b i j)).
Proof.
  intros H. unfold mmap2, array. rewrite map2_self. apply map_ext; intros i. rewrite map2_self. apply map_ext; intros j. apply H.
Qed.

Definition clip_ready (rc : option R) (omp : option nat) (mp : nat) : Prop :=
  match rc with Some _ => omp = Some mp /\ (0 < mp)%nat | None => True end.

Lemma next_array r c b t clip rc omp mp a y : 0 < b < 1 -> (1 <= t)%nat -> truthy clip = option_map Fin rc -> clip_ready rc omp mp ->
  get_next_ewma mmap2 (array r c a) (array r c y) (t + 1) (Fin b) clip omp =
  Ok (array r c (fun i j => rupd b mp rc t (a i j) (y i j))).
Proof.
  intros Hb Ht Hc Hr. unfold get_next_ewma. rewrite Hc. rewrite old_weight_fin, new_weight_fin by auto.
  assert (Hplain : forall e x, nadd (Num:=XR) (nmul (Num:=XR) (Fin (1 - wnew b t)) (Fin e)) (nmul (Num:=XR) (Fin (wnew b t)) (Fin x)) = Fin ((1 - wnew b t) * e + wnew b t * x)) by reflexivity.
  destruct rc as [c0|]; cbn [option_map].
  - destruct Hr as (-> & Hm). destruct mp as [|mp]; [lia|]. destruct (Nat.leb_spec (S mp + 2) (t + 1)).
    + erewrite mmap2_array; [reflexivity|]. intros e x. rewrite rupd_clip by (auto; lia).
      unfold npclip; cbn [nadd nsub nmul ndiv nopp nmin nmax XR]. cbn [xopp xmul]. rewrite xmax_fin, xmin_fin. reflexivity.
    + erewrite mmap2_array; [reflexivity|]. intros e x. rewrite rupd_early by (auto; lia). apply Hplain.
  - erewrite mmap2_array; [reflexivity|]. intros e x. rewrite rupd_none by auto. apply Hplain.
Qed.

Lemma vec_loop_array r c b clip rc omp mp u : 0 < b < 1 -> truthy clip = option_map Fin rc -> clip_ready rc omp mp ->
  forall ts k,
  vec_loop mmap2 (Fin b) clip omp (S k) (array r c (fun i j => rst b mp rc (u i j) k))
    (combine ts (map (fun k => array r c (fun i j => u i j k)) (seq (S k) (length ts)))) =
  (combine ts (map (fun k => array r c (fun i j => rst b mp rc (u i j) k)) (seq (S k) (length ts))), None).
Proof.
  intros Hb Hc Hr. induction ts as [|t ts IH]; intros k; [reflexivity|]. cbn [length seq map combine vec_loop].
  erewrite next_array by (eauto; lia).
  change (array r c (fun i j => rupd b mp rc (S k) (rst b mp rc (u i j) k) (u i j (S k)))) with
    (array r c (fun i j => rst b mp rc (u i j) (S k))).
  rewrite IH. reflexivity.
Qed.

Lemma vec_beta h : 0 < h -> nexp (Num:=XR) (ndiv (Num:=XR) (nopp (nln (nadd n1 n1))) (Fin h)) = Fin (decay h).
Proof.
  intros Hh. cbn [nexp nln nadd nsub nopp ndiv n1 XR]. cbn [xadd xln]. destruct (Rlt_dec 0 (1 + 1)); [|lra]. cbn [xopp].
  rewrite xdiv_fin by lra. cbn [xexp]. unfold decay, Rpower. do 2 f_equal. replace 2 with (1 + 1) by ring. field; lra.
Qed.

Lemma clip_truthy o rc : clip_is o rc -> truthy (N := XR) o = option_map Fin rc.
Proof.
  unfold clip_is, truthy. destruct rc as [c|].
  - intros (-> & H). cbn [nis0 XR xis0]. destruct (Req_EM_T c 0); [lra|reflexivity].
  - intros [-> | ->]; auto. cbn [nis0 XR xis0]. destruct (Req_EM_T 0 0); [reflexivity|lra].
Qed.

(** C38, the items. *)
Lemma vec_items r c ts u h clip rc omp mp : 0 < h -> clip_is clip rc -> clip_ready rc omp mp -> ts <> [] ->
  vec_ewma mmap2 (daily r c ts u) (Fin h) clip omp =
  (tl (daily r c ts (fun i j => limited_avg h mp rc (u i j))), None).
Proof.
  intros Hh Hc Hr Hts. destruct ts as [|t ts]; [congruence|]. unfold vec_ewma, daily. cbn [length seq map combine].
  rewrite vec_beta by auto.
  pose proof (vec_loop_array r c (decay h) clip rc omp mp u (decay_bounds h Hh) (clip_truthy _ _ Hc) Hr ts 0) as E.
  cbn [rst] in E. rewrite E.
  cbn [tl]. do 2 f_equal. apply map_ext; intros k. apply array_ext; intros. rewrite limited_rst; auto.
Qed.


(** C38, agreement with the library. *)
Lemma general_loop_array r c b clip rc mp u : 0 < b < 1 -> truthy clip = option_map Fin rc ->
  forall m k,
  general_loop mmap2 (Fin b) (fun x : mat => x) mp clip (S k) (array r c (fun i j => rst b mp rc (u i j) k))
    (map (fun k => array r c (fun i j => u i j k)) (seq (S k) m)) =
  map (fun k => array r c (fun i j => rst b mp rc (u i j) k)) (seq (S k) m).
Proof.
  intros Hb Hc. induction m as [|m IH]; intros k; [reflexivity|]. cbn [seq map general_loop].
  erewrite mmap2_array by (intros; apply upd_fin; eauto).
  change (array r c (fun i j => rupd b mp rc (S k) (rst b mp rc (u i j) k) (u i j (S k)))) with
    (array r c (fun i j => rst b mp rc (u i j) (S k))).
  rewrite IH. reflexivity.
Qed.

Lemma general_array r c ts u h clip rc mp : 0 < h -> clip_is clip rc -> ts <> [] ->
  general mmap mmap2 (map snd (daily r c ts u)) ts (Some (Fin h)) None (fun x : mat => x) mp clip =
  Ok (combine ts (map (fun k => masked mmap mp k (array r c (fun i j => limited_avg h mp rc (u i j) k))) (seq 0 (length ts)))).
Proof.
  intros Hh Hc Hts. unfold general. rewrite beta_of_fin by auto. cbn [bind]. unfold daily.
  rewrite map_snd_combine by (rewrite map_length, seq_length; auto).
  destruct ts as [|t ts]; [congruence|]. cbn [length seq map].
  pose proof (general_loop_array r c (decay h) clip rc mp u (decay_bounds h Hh) (clip_truthy _ _ Hc) (length ts) 0) as E.
  cbn [rst] in E. cbn [num XR] in E |- *. rewrite E. clear E.
  do 2 f_equal.
  change (array r c (fun i j => u i j 0%nat) :: map (fun k => array r c (fun i j => rst (decay h) mp rc (u i j) k)) (seq 1 (length ts)))
    with (map (fun k => array r c (fun i j => rst (decay h) mp rc (u i j) k)) (seq 0 (S (length ts)))).
  rewrite mask_from_map. change (seq 0 (S (length ts))) with (0%nat :: seq 1 (length ts)). cbn [map]. f_equal.
  apply map_ext; intros k. f_equal. apply array_ext; intros. rewrite limited_rst; auto.
Qed.

Lemma nth_combine_lt {A B} (l : list A) (l' : list B) k a b : (k < length l)%nat -> length l = length l' ->
  nth_error (combine l l') k = Some (nth k l a, nth k l' b).
Proof.
  revert l' k. induction l as [|x l IH]; intros [|y l'] k Hk Hl; simpl in *; try lia. destruct k; [reflexivity|]. apply IH; lia.
Qed.

Lemma vec_agrees r c ts u h clip rc omp mp : 0 < h -> clip_is clip rc -> clip_ready rc omp mp -> ts <> [] ->
  exists lib items,
    general mmap mmap2 (map snd (daily r c ts u)) ts (Some (Fin h)) None (fun x : mat => x) mp clip = Ok lib /\
    vec_ewma mmap2 (daily r c ts u) (Fin h) clip omp = (items, None) /\
    length items = (length ts - 1)%nat /\ length lib = length ts /\
    forall k, (1 <= k < length ts)%nat -> (mp <= k + 1)%nat -> nth_error items (k - 1) = nth_error lib k.
Proof.
  intros Hh Hc Hr Hts. eexists _, _. split; [apply (general_array r c ts u h clip rc mp); auto|].
  split; [apply (vec_items r c ts u h clip rc omp mp); auto|].
  assert (Hlen : forall A (f : nat -> A), length (combine ts (map f (seq 0 (length ts)))) = length ts)
    by (intros; rewrite combine_length, map_length, seq_length; lia).
  repeat split.
  - destruct ts; [congruence|]. unfold daily. cbn [length seq map combine tl]. rewrite combine_length, map_length, seq_length. lia.
  - apply Hlen.
  - intros k Hk Hm.
    assert (E : forall A (l : list A), nth_error (tl l) (k - 1) = nth_error l k).
    { intros A [|a l]; destruct k as [|k']; try lia; cbn [tl]; [destruct k'; reflexivity|]. replace (S k' - 1)%nat with k' by lia. reflexivity. }
    rewrite E. unfold daily.
    rewrite (nth_combine_lt _ _ _ 0%Z []) by (rewrite ?map_length, ?seq_length; lia).
    rewrite (nth_combine_lt _ _ _ 0%Z []) by (rewrite ?map_length, ?seq_length; lia).
    f_equal. f_equal. rewrite !(nth_map_lt _ _ _ 0%nat) by (rewrite seq_length; lia). rewrite !seq_nth by lia.
    unfold masked. cbn [Nat.add]. destruct (Nat.ltb_spec (k + 1) mp); [lia|]. reflexivity.
Qed.

(** Errors *)
Lemma vec_empty {V} (vm : (xr -> xr -> xr) -> V -> V -> V) h clip omp : vec_ewma (N:=XR) vm [] h clip omp = ([], Some IndexError).
Proof. reflexivity. Qed.
Lemma vec_needs_periods {N : Num} {V} vm (y : list (Z * V)) h c omp : (2 <= length y)%nat -> nis0 c = false -> (omp = None \/ omp = Some 0%nat) ->
  vec_ewma vm y h (Some c) omp = ([], Some AssertionError).
Proof.
  intros Hy Hc Ho. destruct y as [|[t0 y0] [|[t1 y1] y]]; simpl in Hy; try lia. unfold vec_ewma. cbn [vec_loop].
  unfold get_next_ewma, truthy. rewrite Hc. destruct Ho as [->| ->]; reflexivity.
Qed.

Lemma vec_iterated_raises {N : Num} {X} (rest : mat -> res X) returns h mpv mean clip :
  vec_iterated_ewma rest returns h mpv mean clip = Raise TypeError.
Proof.
  unfold vec_iterated_ewma. destruct mean; cbn [np_sub call_ewma bind np_sqrt]; [|reflexivity].
  destruct (forallb _ _); reflexivity.
Qed.

(** Below zero the limit is the wrong way round. *)
Lemma limited_negative h mp c u k : 0 < h -> 0 <= c -> (mp <= k)%nat -> limited_avg h mp (Some c) u k < 0 ->
  limited_avg h mp (Some c) u (S k) = (1 + eweight (decay h) (S k) (S k) * (c - 1)) * limited_avg h mp (Some c) u k.
Proof.
  intros Hh Hc Hk Hn. cbn [limited_avg]. set (e := limited_avg h mp (Some c) u k) in *. set (w := eweight _ _ _).
  destruct (Nat.leb_spec (S k) mp); [lia|].
  assert (E : Rmin (Rmax (u (S k)) (- c * e)) (c * e) = c * e).
  { apply Rmin_right. pose proof (Rmax_r (u (S k)) (- c * e)). nra. }
  rewrite E. ring.
Qed.

Lemma eweight_newest b k : 0 < b < 1 -> 1 - b <= eweight b k k <= 1.
Proof.
  intros Hb. rewrite eweight_wnew by auto. destruct k as [|k].
  - unfold wnew. simpl. replace (b * 1) with b by ring. unfold Rdiv. rewrite Rinv_r by lra. lra.
  - split; [|apply Rlt_le, wnew_lt1; auto; lia]. unfold wnew. pose proof (den_pos b Hb (S k)).
    apply (Rmult_le_reg_r (1 - b ^ (S k + 1))); auto. unfold Rdiv. rewrite Rmult_assoc, Rinv_l by lra.
    assert (0 < b ^ (S k + 1)) by (apply pow_lt; lra). nra.
Qed.

Lemma limited_runaway h mp c u k d : 0 < h -> 1 <= c -> (mp <= k)%nat -> limited_avg h mp (Some c) u k < 0 ->
  limited_avg h mp (Some c) u (k + d) <= (1 + (1 - decay h) * (c - 1)) ^ d * limited_avg h mp (Some c) u k.
Proof.
  intros Hh Hc Hk Hn. pose proof (decay_bounds h Hh) as Hb.
  assert (Hg : 1 <= 1 + (1 - decay h) * (c - 1)) by nra.
  induction d; [rewrite Nat.add_0_r; simpl; lra|].
  assert (Hneg : limited_avg h mp (Some c) u (k + d) < 0).
  { assert (1 <= (1 + (1 - decay h) * (c - 1)) ^ d) by (apply pow_R1_Rle; auto). nra. }
  replace (k + S d)%nat with (S (k + d)) by lia. rewrite limited_negative by (auto; try lra; lia).
  pose proof (eweight_newest (decay h) (S (k + d)) Hb) as (Hw & _). set (w := eweight _ _ _) in *.
  cbn [pow]. set (g := 1 + (1 - decay h) * (c - 1)) in *. set (e := limited_avg h mp (Some c) u (k + d)) in *.
  apply Rle_trans with (g * e); [|rewrite Rmult_assoc; apply Rmult_le_compat_l; lra].
  assert (g <= 1 + w * (c - 1)) by (unfold g; nra). nra.
Qed.

Lemma limited_same_future h mp c u v k d : 0 < h -> 1 <= c -> (mp <= k)%nat -> (forall s, (s <= k)%nat -> u s = v s) ->
  limited_avg h mp (Some c) u k < 0 -> limited_avg h mp (Some c) u (k + d) = limited_avg h mp (Some c) v (k + d).
Proof.
  intros Hh Hc Hk He Hn. pose proof (decay_bounds h Hh) as Hb.
  induction d.
  - rewrite Nat.add_0_r. rewrite !limited_rst by auto. apply rst_ext; auto.
  - replace (k + S d)%nat with (S (k + d)) by lia.
    assert (Hneg : limited_avg h mp (Some c) u (k + d) < 0).
    { pose proof (limited_runaway h mp c u k d Hh Hc Hk Hn).
      assert (1 <= (1 + (1 - decay h) * (c - 1)) ^ d) by (apply pow_R1_Rle; nra). nra. }
    rewrite limited_negative by (auto; try lra; lia). rewrite limited_negative; [|auto|lra|lia|rewrite <- IHd; auto].
    rewrite IHd. reflexivity.
Qed.

Lemma rsum_lin (m n : nat) (x : nat -> R) b (u : nat -> nat -> nat -> R) k :
  rsum n (fun i => rsum m (fun j => x i * x j * ewavg b (u i j) k)) =
  ewavg b (fun s => rsum n (fun i => rsum m (fun j => x i * x j * u i j s))) k.
Proof.
  unfold ewavg. set (d := rsum (S k) (fun s => b ^ (k - s))). unfold Rdiv.
  rewrite (rsum_ext n _ (fun i => / d * rsum m (fun j => rsum (S k) (fun s => b ^ (k - s) * (x i * x j * u i j s))))).
  2:{ intros i _. rewrite <- rsum_scal. apply rsum_ext; intros j _.
      rewrite (rsum_ext (S k) (fun s => b ^ (k - s) * (x i * x j * u i j s)) (fun s => x i * x j * (b ^ (k - s) * u i j s))) by (intros; ring).
      rewrite rsum_scal. ring. }
  rewrite rsum_scal, Rmult_comm. f_equal.
  rewrite (rsum_ext n _ (fun i => rsum (S k) (fun s => rsum m (fun j => b ^ (k - s) * (x i * x j * u i j s))))).
  2:{ intros i _. apply rsum_swap. }
  rewrite rsum_swap. apply rsum_ext; intros s _. rewrite <- rsum_scal. apply rsum_ext; intros i _. apply rsum_scal.
Qed.

Lemma limited_psd h mp n (u : nat -> nat -> nat -> R) k : 0 < h ->
  (forall s, (s <= k)%nat -> forall x, 0 <= rsum n (fun i => rsum n (fun j => x i * x j * u i j s))) ->
  forall x, 0 <= rsum n (fun i => rsum n (fun j => x i * x j * limited_avg h mp None (u i j) k)).
Proof.
  intros Hh H x.
  rewrite (rsum_ext n _ (fun i => rsum n (fun j => x i * x j * ewavg (decay h) (u i j) k)))
    by (intros; apply rsum_ext; intros; rewrite limited_none; auto).
  rewrite rsum_lin. apply ewavg_nonneg; [apply decay_bounds; auto|]. auto.
Qed.

Lemma limited_const h mp c k : 0 < h -> 1 <= c -> limited_avg h mp (Some c) (fun _ => 1) k = 1.
Proof.
  intros Hh Hc. induction k; [reflexivity|]. cbn [limited_avg]. rewrite IHk.
  destruct (S k <=? mp)%nat; [ring|]. rewrite Rmax_left, Rmin_left by lra. ring.
Qed.
Lemma limited_anti h mp c k : 0 < h -> 1 < c -> (mp < k)%nat -> limited_avg h mp (Some c) (fun _ => -1) k < -1.
Proof.
  intros Hh Hc Hk.
  assert (E : limited_avg h mp (Some c) (fun _ => -1) mp = -1).
  { rewrite limited_early by auto. pose proof (decay_bounds h Hh) as Hb. clear. unfold ewavg.
    assert (Hp : 0 < rsum (S mp) (fun s => decay h ^ (mp - s))).
    { apply (rsum_pos _ _ 0%nat); [intros; apply pow_le, Rlt_le, exp_pos|lia|apply pow_lt, exp_pos]. }
    rewrite (rsum_ext (S mp) (fun s => decay h ^ (mp - s) * -1) (fun s => -1 * decay h ^ (mp - s))) by (intros; ring).
    rewrite rsum_scal. field. lra. }
  replace k with (mp + (k - mp))%nat by lia.
  assert (Hn : limited_avg h mp (Some c) (fun _ => -1) mp < 0) by lra.
  pose proof (limited_runaway h mp c (fun _ => -1) mp (k - mp) Hh (Rlt_le _ _ Hc) (le_n _) Hn) as H. rewrite E in H.
  pose proof (decay_bounds h Hh) as Hb.
  assert (1 < (1 + (1 - decay h) * (c - 1)) ^ (k - mp)) by (apply Rlt_pow_R1; [nra|lia]). lra.
Qed.

Lemma anti_items h mp c ts k item : 0 < h -> 1 < c -> (0 < mp < k)%nat ->
  nth_error (fst (vec_ewma mmap2 (daily 2 2 ts (fun i j _ => if Nat.eqb i j then 1 else -1)) (Fin h) (Some (Fin c)) (Some mp))) (k - 1) =
    Some (nth k ts 0%Z, item) ->
  exists e, item = [[Fin 1; Fin e]; [Fin e; Fin 1]] /\ e < -1.
Proof.
  intros Hh Hc Hk. destruct ts as [|t ts0] eqn:Ets; [simpl; destruct (k - 1)%nat; discriminate|]. rewrite <- Ets.
  assert (Hcl : clip_is (Some (Fin c)) (Some c)) by (split; auto; lra).
  rewrite (vec_items 2 2 ts _ h _ _ _ mp Hh Hcl) by (subst; try discriminate; split; auto; lia). cbn [fst].
  assert (E : forall A (l : list A), nth_error (tl l) (k - 1) = nth_error l k).
  { intros A [|a l]; destruct k as [|k']; try lia; cbn [tl]; [destruct k'; reflexivity|]. replace (S k' - 1)%nat with k' by lia. reflexivity. }
  rewrite E. intros H.
  assert (Hl : (k < length ts)%nat).
  { assert (H0 := H). assert (Hs : nth_error (daily 2 2 ts (fun i j => limited_avg h mp (Some c) (fun _ : nat => if (i =? j)%nat then 1 else -1))) k <> None) by congruence.
    apply nth_error_Some in Hs. unfold daily in Hs. rewrite combine_length, map_length, seq_length in Hs. lia. }
  unfold daily in H. rewrite (nth_combine_lt _ _ _ 0%Z []) in H by (rewrite ?map_length, ?seq_length; lia).
  rewrite !(nth_map_lt _ _ _ 0%nat), seq_nth in H by (rewrite ?seq_length; lia). injection H as H. subst item.
  exists (limited_avg h mp (Some c) (fun _ => -1) k). split; [|apply limited_anti; auto; lia].
  unfold array. cbn [seq map Nat.eqb Nat.add]. rewrite limited_const by (auto; lra). reflexivity.
Qed.
