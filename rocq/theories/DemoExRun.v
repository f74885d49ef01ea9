(** * One asset, six days of prices: the forecasts of one expert with mean = True and clipping. *)
From Coq Require Import String Reals Lra Psatz List Bool ZArith Arith Lia Sorted.
From Verif Require Import Num Py Ewma Spec SpecEwma EwmaReal EwmaClosed EwmaProps EwmaProps3 EwmaAny Combination FromEwmas SpecFrom SpecRank SpecCross SpecDemo Demo EwmaPrefix CmPos FromExRun FromFiniteMean DemoFin.
Import ListNotations.
Local Open Scope R_scope.

Definition dm_p (j k : nat) : R := nth k [1; 1; 2; 1; 9; 909] 1.
Definition dm_prices : frame (N := XR) time :=
  mkFrame [1;2;3;4;5;6]%Z ["A"]%string [[Fin 1]; [Fin 1]; [Fin 2]; [Fin 1]; [Fin 9]; [Fin 909]].
Definition dm_x (i k : nat) : R := nth k [0; 1; - / 2; 8; 100] 0.
Definition dm_f : frame (N := XR) time := mkFrame [2;3;4;5;6]%Z ["A"]%string [[Fin 0]; [Fin 1]; [Fin (- / 2)]; [Fin 8]; [Fin 100]].
Definition dm_pairs : list (option xr * option xr) := [fr_pair 1].
Definition dm_P : params (N := XR) := pair_params (N := XR) 2 2 (Some (Fin 1)) true (fr_pair 1).

Lemma dm_wf : wf_frame dm_prices. Proof. split; [reflexivity|repeat constructor]. Qed.
Lemma dm_inc : increasing (findex dm_prices). Proof. simpl; lia. Qed.
Lemma dm_are : prices_are dm_prices dm_p.
Proof. intros k j Hk Hj. simpl in Hk, Hj. destruct j; [|lia]. do 6 (destruct k as [|k]; [split; [reflexivity|unfold dm_p; simpl; lra]|]). lia. Qed.
Lemma dm_cols : columns_of ["A"]%string (fcols dm_prices) (fun i => i).
Proof. intros i Hi. reflexivity. Qed.
Lemma dm_nodup : NoDup (fcols dm_prices). Proof. repeat constructor; simpl; tauto. Qed.
Lemma dm_rel k : (k < 5)%nat -> relative dm_p 0 k = dm_x 0 k.
Proof. intros Hk. unfold relative, dm_p, dm_x. do 5 (destruct k as [|k]; [simpl; lra|]). lia. Qed.

Lemma dm_valid : valid_returns dm_f.
Proof. split; [split; [reflexivity|repeat constructor]|]. split; [simpl; lia|discriminate]. Qed.
Lemma dm_returns b : returns_are b dm_f dm_x.
Proof. intros k j Hk Hj. simpl in Hk, Hj. left. destruct j; [|lia]. do 5 (destruct k as [|k]; [reflexivity|]). lia. Qed.
Lemma dm_positive : positive_halflives dm_pairs.
Proof. intros p [<-|[]]; eexists _, _; (split; [reflexivity|]); split; lra. Qed.
Lemma dm_clip : clip_is (Some (Fin 1)) (Some 1). Proof. split; [reflexivity|lra]. Qed.
Lemma dm_settings : settings dm_P 1 1 1 1 (Some 1).
Proof. split; [split; [reflexivity|lra]|]. split; [split; [reflexivity|lra]|]. split; [left; auto|]. split; [left; auto|]. exact dm_clip. Qed.
Lemma dm_moved : moved true dm_x 1 (first_pos 2).
Proof. exists 0%nat, 1%nat. split; [lia|]. split; [unfold first_pos; simpl; lia|]. unfold dm_x; simpl; lra. Qed.
Lemma dm_crosses : crosses 1 dm_x 1 2 2.
Proof.
  intros j Hj. destruct j; [|lia]. exists 1%nat, 2%nat. unfold first_pos. split; [simpl; lia|]. split; [simpl; lia|].
  unfold ewavg. rewrite !fr_decay_1. unfold dm_x. cbn [rsum minus pow nth]. split; lra.
Qed.
Lemma dm_all p h : In p dm_pairs -> fst p = Some (Fin h) -> crosses h dm_x 1 2 2.
Proof. intros [<-|[]] H. injection H as <-. exact dm_crosses. Qed.

(** The same conditions stated on the relative changes of the prices. *)
Lemma dm_moved' : moved true (fun i => relative dm_p i) 1 (first_pos 2).
Proof. exists 0%nat, 1%nat. split; [lia|]. split; [unfold first_pos; simpl; lia|]. unfold relative, dm_p; simpl; lra. Qed.
Lemma dm_all' p h : In p dm_pairs -> fst p = Some (Fin h) -> crosses h (fun i => relative dm_p i) 1 2 2.
Proof.
  intros [<-|[]] H. injection H as <-.
  intros j Hj. destruct j; [|lia]. exists 1%nat, 2%nat. unfold first_pos. split; [simpl; lia|]. split; [simpl; lia|].
  unfold ewavg. rewrite !fr_decay_1. unfold relative, dm_p. cbn [rsum minus pow nth]. split; lra.
Qed.

(** Bounds. *)
Lemma Rabs_between x M : Rabs x <= M -> - M <= x <= M.
Proof. unfold Rabs. destruct (Rcase_abs x); lra. Qed.
Lemma ewavg_bound b u k M : 0 < b < 1 -> (forall s, (s <= k)%nat -> Rabs (u s) <= M) -> Rabs (ewavg b u k) <= M.
Proof.
  intros Hb. induction k as [|k IH]; intros H; [rewrite ewavg_0 by auto; apply H; lia|].
  rewrite ewavg_S by auto. specialize (IH ltac:(intros; apply H; lia)). specialize (H (S k) ltac:(lia)).
  pose proof (eweight_last b (S k) (proj1 Hb) ltac:(lia)) as W. rewrite eweight_wnew in W by auto. revert W IH H. generalize (wnew b (S k)), (ewavg b u k), (u (S k)). intros w e y W IH H.
  apply Rabs_le. apply Rabs_between in IH. apply Rabs_between in H. nra.
Qed.
Definition dm_y (k : nat) : R := centred true 1 dm_x 0 k.
Definition dm_var (k : nat) : R := winsor_var 1 2 (Some 1) dm_y k.
Lemma dm_y1 : dm_y 0 = 0 /\ dm_y 1 = / 3.
Proof. unfold dm_y, centred, ewavg. rewrite !fr_decay_1. unfold dm_x. cbn [rsum minus pow nth]. split; lra. Qed.
Lemma dm_var_nonneg k : 0 <= dm_var k.
Proof.
  unfold dm_var. induction k as [|k IH]; cbn [winsor_var]; [apply pow2_ge_0|].
  pose proof (eweight_last (decay 1) (S k) ltac:(rewrite fr_decay_1; lra) ltac:(lia)) as W. pose proof (pow2_ge_0 (dm_y (S k))).
  set (u := if (_ <=? _)%nat then _ else _). assert (0 <= u) by (unfold u; destruct (_ <=? _)%nat; auto; apply Rmin_glb; auto; nra). nra.
Qed.
Lemma dm_var_pos k : (1 <= k)%nat -> 0 < dm_var k.
Proof.
  induction k as [|k IH]; intros Hk; [lia|]. unfold dm_var in *. cbn [winsor_var].
  pose proof (eweight_last (decay 1) (S k) ltac:(rewrite fr_decay_1; lra) ltac:(lia)) as W. pose proof (pow2_ge_0 (dm_y (S k))).
  set (u := if (_ <=? _)%nat then _ else _). pose proof (dm_var_nonneg k) as V. unfold dm_var in V.
  assert (0 <= u) by (unfold u; destruct (_ <=? _)%nat; auto; apply Rmin_glb; auto; nra).
  destruct k as [|k].
  - assert (u = / 9) by (unfold u; cbn [Nat.leb]; rewrite (proj2 dm_y1); lra). nra.
  - specialize (IH ltac:(lia)). nra.
Qed.
Lemma dm_var_bound k M : 0 <= M -> (forall s, (s <= k)%nat -> Rabs (dm_y s) <= M) -> dm_var k <= M ^ 2.
Proof.
  intros HM. assert (Sq : forall s, Rabs (dm_y s) <= M -> dm_y s ^ 2 <= M ^ 2) by (intros s Hs; rewrite <- (Rabs_pos_eq M HM) in Hs; apply Rsqr_le_abs_1 in Hs; unfold Rsqr in Hs; lra).
  unfold dm_var. induction k as [|k IH]; intros H; cbn [winsor_var]; [apply Sq, H; lia|].
  pose proof (eweight_last (decay 1) (S k) ltac:(rewrite fr_decay_1; lra) ltac:(lia)) as W. specialize (IH ltac:(intros; apply H; lia)).
  pose proof (Sq _ (H (S k) ltac:(lia))). set (u := if (_ <=? _)%nat then _ else _).
  assert (u <= M ^ 2) by (unfold u; destruct (_ <=? _)%nat; auto; eapply Rle_trans; [apply Rmin_l|auto]). nra.
Qed.
Definition dm_big (k : nat) : R := nth k [1; 1; 1; 8; 100] 100.
Lemma dm_x_bound k s : (k < 5)%nat -> (s <= k)%nat -> Rabs (dm_x 0 s) <= dm_big k.
Proof.
  intros Hk Hs. unfold dm_x, dm_big.
  do 5 (destruct k as [|k]; [do 5 (destruct s as [|s]; [try lia; simpl; apply Rabs_le; lra|]); lia|]). lia.
Qed.
Lemma dm_y_bound k s : (k < 5)%nat -> (s <= k)%nat -> Rabs (dm_y s) <= 2 * dm_big k.
Proof.
  intros Hk Hs. unfold dm_y, centred. pose proof (dm_x_bound k s Hk Hs) as A.
  pose proof (ewavg_bound (decay 1) (dm_x 0) s (dm_big k) ltac:(rewrite fr_decay_1; lra) ltac:(intros; apply dm_x_bound; lia)) as B.
  apply Rabs_le. apply Rabs_between in A. apply Rabs_between in B. lra.
Qed.
Lemma std_bound y v : Rabs (standardised (Some 1) y v) <= 1.
Proof.
  assert (E : Rabs 1 = 1) by (apply Rabs_pos_eq; lra).
  unfold standardised. rewrite E. destruct (xdiv (Fin y) (Fin v)); simpl.
  - apply Rabs_le. split; [apply Rmax_l|]. apply Rmax_lub; [lra|apply Rmin_l].
  - apply Rabs_le; lra. - apply Rabs_le; lra. - rewrite Rabs_R0; lra.
Qed.

(** Forecasts at rows 2, 3, 4 of the returns. *)
Lemma dm_items : exists outs, iterated_ewma dm_P dm_f = Ok outs /\ map itime outs = [4;5;6]%Z /\
  forall i o, nth_error outs i = Some o -> cov_at o 0 0 = Fin (dm_var (2 + i)) /\ exists m, mean_at o 0 = Fin m /\ Rabs m <= 3 * dm_big (2 + i).
Proof.
  destruct (run_total dm_P dm_f dm_x 1 1 1 1 (Some 1) dm_settings dm_valid (dm_returns _)) as (rows & S1 & S2 & S3 & S4).
  assert (Hr : rows = seq 1 4).
  { apply sorted_seq; auto. intros k. rewrite S2. unfold first_pos. unfold dm_P, pair_params; cbn [min_periods_vola use_mean length findex fcols dm_f].
    split; [lia|]. intros Hk. split; [lia|]. exists 0%nat. split; [lia|left]. pose proof (sqrt_lt_R0 _ (dm_var_pos k ltac:(lia))). unfold dm_var, dm_y in H.
    change (fun k0 : nat => centred true 1 dm_x 0 k0) with (centred true 1 dm_x 0) in H. lra. }
  subst rows. destruct (S4 ltac:(discriminate)) as (outs & E & Et & Hi). exists outs. split; [exact E|]. split; [exact Et|].
  intros i o Ho. specialize (Hi i o Ho). cbv zeta in Hi. specialize (Hi 0%nat ltac:(simpl; lia)).
  assert (Hlt : (i < 3)%nat).
  { assert (H : nth_error outs i <> None) by congruence. apply nth_error_Some in H. rewrite <- (map_length itime), Et in H. exact H. }
  cbn [dm_P pair_params use_mean min_periods_vola min_periods_cov] in *.
  assert (Ek : nth (first_pos 2 + i) (seq 1 4) 0%nat = (2 + i)%nat) by (unfold first_pos; rewrite seq_nth by lia; lia). rewrite Ek in Hi.
  change (centred true 1 dm_x 0) with dm_y in Hi. change (winsor_var 1 2 (Some 1) dm_y (2 + i)) with (dm_var (2 + i)) in Hi.
  pose proof (dm_var_pos (2 + i) ltac:(lia)) as Vp. destruct Hi as (_ & Em & Hc). destruct (Hc 0%nat ltac:(simpl; lia)) as [Hf _]. clear Hc. split.
  - match type of Hf with ?A -> _ => assert (V0 : A) end.
    { (* the standardised centred returns of rows 1 and 2 have different signs *)
      set (z := fun (j s : nat) => standardised _ _ _).
      assert (Z : z 0%nat 0%nat <> z 0%nat 1%nat).
      { pose proof (dm_crosses 0%nat ltac:(lia)) as _. unfold z. cbn [nth seq]. change (centred true 1 dm_x 0) with dm_y. 
        pose proof (FromFiniteMean.std_sign (Some 1) (dm_y 1) (sqrt (winsor_var 1 2 (Some 1) dm_y 1)) ltac:(intros c H; injection H as <-; lra) (sqrt_pos _) ltac:(discriminate)) as [A _].
        pose proof (FromFiniteMean.std_sign (Some 1) (dm_y 2) (sqrt (winsor_var 1 2 (Some 1) dm_y 2)) ltac:(intros c H; injection H as <-; lra) (sqrt_pos _) ltac:(discriminate)) as [_ B].
        assert (Y1 : 0 < dm_y 1) by (rewrite (proj2 dm_y1); lra).
        assert (Y2 : dm_y 2 < 0) by (unfold dm_y, centred, ewavg; rewrite !fr_decay_1; unfold dm_x; cbn [rsum minus pow nth]; lra).
        specialize (A Y1). specialize (B Y2). lra. }
      destruct (Req_dec (centred true 1 z 0 1) 0) as [C|C]; [|exists 1%nat; split; [unfold first_pos; lia|exact C]]. exfalso. apply Z. unfold centred in C.
      rewrite ewavg_S, ewavg_0 in C by (rewrite fr_decay_1; lra). pose proof (eweight_last (decay 1) 1 ltac:(rewrite fr_decay_1; lra) ltac:(lia)) as W.
      rewrite eweight_wnew in W by (rewrite fr_decay_1; lra). revert C W. generalize (wnew (decay 1) 1), (z 0%nat 0%nat), (z 0%nat 1%nat). clear. intros w z0 z1 C W. apply (Rmult_eq_reg_l (1 - w)); [|lra]. lra. }
    destruct (Hf V0 V0) as (C1 & _ & ->).
    assert (Q : forall v c, 0 < v -> 0 < c -> sqrt v * sqrt v * (c / sqrt (c * c)) = v).
    { intros v c Hv Hc'. rewrite sqrt_square by lra. rewrite sqrt_sqrt by lra. field. lra. }
    exact (f_equal Fin (Q _ _ Vp C1)).
  - eexists. split; [exact Em|]. set (zb := ewavg _ (fun _ => standardised _ _ _) _).
    assert (Z : Rabs zb <= 1) by (apply ewavg_bound; [rewrite fr_decay_1; lra|intros; apply std_bound]).
    pose proof (ewavg_bound (decay 1) (dm_x 0) (2 + i) (dm_big (2 + i)) ltac:(rewrite fr_decay_1; lra) ltac:(intros; apply dm_x_bound; lia)) as X.
    assert (B0 : 0 <= dm_big (2 + i)) by (eapply Rle_trans; [apply Rabs_pos|exact X]).
    pose proof (dm_var_bound (2 + i) (2 * dm_big (2 + i)) ltac:(lra) ltac:(intros; apply dm_y_bound; lia)) as V.
    assert (S : 0 <= sqrt (dm_var (2 + i)) <= 2 * dm_big (2 + i)).
    { split; [apply sqrt_pos|]. rewrite <- (sqrt_pow2 (2 * dm_big (2 + i))) by lra. apply sqrt_le_1; nra. }
    apply Rabs_between in Z. apply Rabs_between in X. apply Rabs_le. revert X Z S. generalize (sqrt (dm_var (2 + i))), zb, (ewavg (decay 1) (dm_x 0) (2 + i)). intros; nra.
Qed.

Definition dm_f4 : frame (N := XR) time := frame_take 4 dm_f.
Lemma dm_frame pad m g : (m = 5 \/ m = 6)%nat -> demo_returns pad ["A"]%string (frame_take m dm_prices) = Ok g -> g = frame_take (m - 1) dm_f.
Proof.
  intros Hm E. assert (Hw : wf_frame (frame_take m dm_prices)) by (destruct Hm as [-> | ->]; split; [reflexivity|repeat constructor|reflexivity|repeat constructor]).
  assert (Hi : increasing (findex (frame_take m dm_prices))) by (destruct Hm as [-> | ->]; simpl; lia).
  assert (Hp : prices_are (frame_take m dm_prices) dm_p).
  { intros k j Hk Hj. simpl in Hj. destruct j; [|lia]. destruct Hm as [-> | ->]; simpl in Hk.
    - do 5 (destruct k as [|k]; [split; [reflexivity|unfold dm_p; simpl; lra]|]). lia.
    - do 6 (destruct k as [|k]; [split; [reflexivity|unfold dm_p; simpl; lra]|]). lia. }
  destruct (DemoFin.returns_of_prices pad ["A"]%string (frame_take m dm_prices) dm_p (fun i => i) Hw Hi Hp dm_nodup dm_cols ltac:(discriminate)) as (g' & E' & Gi & Gc & Gv & Gr).
  rewrite E in E'. injection E' as <-. destruct g as [gi gc gv]. cbn [findex fcols fvals] in *. unfold frame_take. cbn [findex fcols fvals].
  assert (Ei : gi = firstn (m - 1) (findex dm_f)) by (rewrite Gi; destruct Hm as [-> | ->]; reflexivity).
  f_equal; auto. destruct Gv as ([G1 G2] & _). cbn [findex fcols fvals] in G1, G2. rewrite Gc in G2. cbn [length] in G2.
  assert (Lm : length gi = (m - 1)%nat) by (rewrite Ei; destruct Hm as [-> | ->]; reflexivity).
  apply (DemoFin.rows_ext 1); auto.
  - refine (eq_trans (eq_sym G1) _). rewrite Lm. destruct Hm as [-> | ->]; reflexivity.
  - destruct Hm as [-> | ->]; repeat constructor.
  - intros k j Hk Hj. assert (Hk' : (k < length gi)%nat) by (refine (eq_rect_r (fun m' => (k < m')%nat) _ G1); exact Hk). destruct (Gr k j) as [R|(_ & ? & _)]; [exact Hk'|cbn [fcols]; rewrite Gc; exact Hj| |discriminate].
    unfold entry in R. cbn [fvals] in R. refine (eq_trans R _). destruct j; [|lia]. assert (K5 : (k < 5)%nat) by lia. rewrite (dm_rel k K5). unfold dm_x.
    destruct Hm as [-> | ->]; simpl in Lm; rewrite Lm in Hk'.
    + do 4 (destruct k as [|k]; [reflexivity|]). lia.
    + do 5 (destruct k as [|k]; [reflexivity|]). lia.
Qed.
Lemma dm_demo_returns pad : demo_returns pad ["A"]%string dm_prices = Ok dm_f.
Proof.
  destruct (DemoFin.returns_of_prices pad ["A"]%string dm_prices dm_p (fun i => i) dm_wf dm_inc dm_are dm_nodup dm_cols ltac:(discriminate)) as (g & E & _).
  rewrite E. f_equal. exact (dm_frame pad 6 g (or_intror eq_refl) E).
Qed.
Lemma dm_takes : exists outs, iterated_ewma dm_P dm_f4 = Ok outs /\ length outs = 2%nat.
Proof.
  assert (Hv : valid_returns dm_f4).
  { split; [split; [reflexivity|repeat constructor]|]. split; [simpl; lia|discriminate]. }
  assert (Hx : returns_are true dm_f4 dm_x).
  { intros k j Hk Hj. simpl in Hk, Hj. left. destruct j; [|lia]. do 4 (destruct k as [|k]; [reflexivity|]). lia. }
  destruct (schedule_full dm_P dm_f4 dm_x 1 1 1 1 (Some 1) dm_settings Hv Hx) as (outs & E1 & E2).
  - simpl. lia.
  - exists 0%nat, 1%nat. split; [simpl; lia|]. split; [unfold first_pos; simpl; lia|]. change (dm_y 1 <> 0). rewrite (proj2 dm_y1). lra.
  - exists outs. split; auto. rewrite <- (map_length itime), E2. reflexivity.
Qed.
