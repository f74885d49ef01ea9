(** * A tighter limit never raises a volatility. *)
From Coq Require Import String Reals Lra Psatz List Bool ZArith Arith Lia.
From Verif Require Import Num Py ListFacts Ewma Spec SpecEwma EwmaReal EwmaClosed EwmaProps EwmaAny CmPos ExEwma SpecClip.
Import ListNotations.
Local Open Scope R_scope.

Lemma eweight_own h k : 0 < h -> 0 < eweight (decay h) k k <= 1.
Proof.
  intros Hh. pose proof (decay_bounds h Hh) as Hb. destruct k as [|k].
  - unfold eweight. simpl. lra.
  - assert (E := eweight_last (decay h) (S k) ltac:(lra) ltac:(lia)). lra.
Qed.
Lemma winsor_nonneg h mp rc y k : 0 < h -> 0 <= winsor_var h mp rc y k.
Proof.
  intros Hh. induction k as [|k IH]; [simpl; apply (pow2_ge_0 (y 0%nat))|]. cbn [winsor_var]. cbv zeta. set (e := winsor_var h mp rc y k) in *. destruct (eweight_own h (S k) Hh) as [W0 W1].
  assert (Y := pow2_ge_0 (y (S k))). apply Rplus_le_le_0_compat; [apply Rmult_le_pos; lra|]. apply Rmult_le_pos; [lra|].
  destruct rc as [c|]; [|exact Y]. destruct (_ <=? _)%nat; [exact Y|]. apply Rmin_glb; [exact Y|]. apply Rmult_le_pos; [apply pow2_ge_0|exact IH].
Qed.
Lemma winsor_mono h mp rc rc' y k : 0 < h -> tighter rc rc' -> winsor_var h mp rc y k <= winsor_var h mp rc' y k.
Proof.
  intros Hh Ht. induction k as [|k IH]; [simpl; lra|]. cbn [winsor_var]. cbv zeta. assert (P := winsor_nonneg h mp rc y k Hh). assert (P' := winsor_nonneg h mp rc' y k Hh).
  set (e := winsor_var h mp rc y k) in *. set (e' := winsor_var h mp rc' y k) in *.
  destruct (eweight_own h (S k) Hh) as [W0 W1]. assert (A : (1 - eweight (decay h) (S k) (S k)) * e <= (1 - eweight (decay h) (S k) (S k)) * e') by (apply Rmult_le_compat_l; lra).
  apply Rplus_le_compat; [exact A|]. apply Rmult_le_compat_l; [lra|]. destruct rc as [c|], rc' as [c'|]; cbn [tighter] in Ht; try contradiction; try lra.
  - destruct (_ <=? _)%nat; [lra|]. apply Rle_min_compat_l. assert (C : c ^ 2 <= c' ^ 2) by (rewrite <- (pow2_abs c), <- (pow2_abs c'); apply pow_incr; split; [apply Rabs_pos|exact Ht]).
    apply Rmult_le_compat; [apply pow2_ge_0|exact P|exact C|exact IH].
  - destruct (_ <=? _)%nat; [lra|]. apply Rmin_l.
Qed.
Lemma winsor_idle h mp c y k : 0 < h -> (forall s, (mp <= s)%nat -> (s < k)%nat -> y (S s) ^ 2 <= c ^ 2 * winsor_var h mp None y s) ->
  winsor_var h mp (Some c) y k = winsor_var h mp None y k.
Proof.
  intros Hh. induction k as [|k IH]; intros H; [reflexivity|]. cbn [winsor_var]. cbv zeta. rewrite IH by (intros; apply H; lia).
  destruct (Nat.leb_spec (S k) mp); [reflexivity|]. rewrite Rmin_left by (apply H; lia). reflexivity.
Qed.

(** ** volatility *)
Theorem vol_mono f x h mp o o' rc rc' : valid_returns f -> returns_are false f x -> fvals f <> [] -> 0 < h -> clip_is o rc -> clip_is o' rc' -> tighter rc rc' ->
  exists v v', volatility f (Some (Fin h)) mp o = Ok v /\ volatility f (Some (Fin h)) mp o' = Ok v' /\ findex v = findex v' /\
    forall k j, (k < length (findex v))%nat -> (j < length (fcols f))%nat ->
      exists s s', entry v k j = Fin s /\ entry v' k j = Fin s' /\ 0 <= s <= s'.
Proof.
  intros Hf Hx Hne Hh Ho Ho' Ht. destruct (volatility_path f x h mp o rc Hf Hx Hne Hh Ho) as (v & V1 & V2 & V3 & V4).
  destruct (volatility_path f x h mp o' rc' Hf Hx Hne Hh Ho') as (v' & W1 & W2 & W3 & W4).
  exists v, v'. split; [exact V1|]. split; [exact W1|]. split; [congruence|]. intros k j Hk Hj. rewrite V3, skipn_length in Hk.
  assert (E1 := V4 (first_pos mp + k)%nat j ltac:(lia) Hj). assert (E2 := W4 (first_pos mp + k)%nat j ltac:(lia) Hj).
  replace (first_pos mp + k - first_pos mp)%nat with k in E1, E2 by lia. exists (sqrt (winsor_var h mp rc (x j) (first_pos mp + k))), (sqrt (winsor_var h mp rc' (x j) (first_pos mp + k))).
  split; [exact E1|]. split; [exact E2|]. split; [apply sqrt_pos|]. apply sqrt_le_1_alt. apply winsor_mono; assumption.
Qed.
Theorem vol_idle f x h mp c j : valid_returns f -> returns_are false f x -> fvals f <> [] -> 0 < h -> c <> 0 -> (j < length (fcols f))%nat ->
  exists v v', volatility f (Some (Fin h)) mp (Some (Fin c)) = Ok v /\ volatility f (Some (Fin h)) mp None = Ok v' /\ findex v = findex v' /\
    forall k, (first_pos mp + k < length (findex f))%nat ->
      (forall s, (mp <= s)%nat -> (s < first_pos mp + k)%nat -> x j (S s) ^ 2 <= c ^ 2 * ewavg (decay h) (fun t => x j t ^ 2) s) ->
      entry v k j = entry v' k j.
Proof.
  intros Hf Hx Hne Hh Hc Hj. destruct (volatility_path f x h mp (Some (Fin c)) (Some c) Hf Hx Hne Hh ltac:(split; auto)) as (v & V1 & V2 & V3 & V4).
  destruct (volatility_path f x h mp None None Hf Hx Hne Hh ltac:(left; auto)) as (v' & W1 & W2 & W3 & W4).
  exists v, v'. split; [exact V1|]. split; [exact W1|]. split; [congruence|]. intros k Hk Hs.
  assert (E1 := V4 (first_pos mp + k)%nat j ltac:(lia) Hj). assert (E2 := W4 (first_pos mp + k)%nat j ltac:(lia) Hj).
  replace (first_pos mp + k - first_pos mp)%nat with k in E1, E2 by lia. rewrite E1, E2. do 2 f_equal. apply winsor_idle; [exact Hh|].
  intros s Hs1 Hs2. rewrite winsor_none by exact Hh. apply Hs; assumption.
Qed.

(** ** iterated_ewma *)
Lemma item_vol P f x hv hc h1 h2 rc outs o : settings P hv hc h1 h2 rc -> valid_returns f -> returns_are (nan_to_num P) f x ->
  iterated_ewma P f = Ok outs -> In o outs -> exists k, (k < length (findex f))%nat /\ itime o = nth k (findex f) 0%Z /\
  forall p, (p < length (fcols f))%nat -> vol_at o p = Fin (sqrt (winsor_var hv (min_periods_vola P) rc (centred (use_mean P) h1 x p) k)).
Proof.
  intros HS Hf Hx HO Ho. destruct (run_total _ _ _ _ _ _ _ _ HS Hf Hx) as (rows & S1 & S2 & R1 & R2).
  destruct rows as [|r0 rows']; [rewrite R1 in HO by reflexivity; discriminate|]. destruct R2 as (outs' & E & T & I); [discriminate|].
  rewrite E in HO. inversion HO; subst outs'. set (rows := r0 :: rows') in *. apply In_nth_error in Ho. destruct Ho as [i Hi].
  exists (nth (first_pos (min_periods_cov P) + i) rows 0%nat).
  assert (Li : (i < length outs)%nat) by (apply nth_error_Some; congruence).
  assert (Lr : (first_pos (min_periods_cov P) + i < length rows)%nat) by (apply (f_equal (@length _)) in T; rewrite !map_length, skipn_length in T; lia).
  split; [apply (S2 (nth (first_pos (min_periods_cov P) + i) rows 0%nat)), nth_In, Lr|]. split.
  - apply (f_equal (fun l => nth_error l i)) in T. rewrite !nth_error_map, Hi in T. simpl in T.
    rewrite (nth_error_nth' _ 0%nat) in T by (rewrite skipn_length; lia). simpl in T. inversion T as [T']. rewrite T', nth_skipn_eq. reflexivity.
  - intros p Hp. destruct (I i o Hi p Hp) as [V _]. exact V.
Qed.
Theorem items_mono P P' f x hv hc hc' h1 h2 h2' rc rc' outs outs' o o' p :
  settings P hv hc h1 h2 rc -> settings P' hv hc' h1 h2' rc' -> tighter rc rc' ->
  use_mean P = use_mean P' -> min_periods_vola P = min_periods_vola P' -> nan_to_num P = nan_to_num P' ->
  valid_returns f -> returns_are (nan_to_num P) f x -> iterated_ewma P f = Ok outs -> iterated_ewma P' f = Ok outs' ->
  In o outs -> In o' outs' -> itime o = itime o' -> (p < length (fcols f))%nat ->
  exists s s', vol_at o p = Fin s /\ vol_at o' p = Fin s' /\ 0 <= s <= s'.
Proof.
  intros HS HS' Ht Em Ep En Hf Hx HO HO' Ho Ho' Et Hp.
  destruct (item_vol _ _ _ _ _ _ _ _ _ _ HS Hf Hx HO Ho) as (k & K1 & K2 & K3). rewrite En in Hx.
  destruct (item_vol _ _ _ _ _ _ _ _ _ _ HS' Hf Hx HO' Ho') as (k' & K1' & K2' & K3').
  assert (D : NoDup (findex f)) by (apply (valid_good f Hf)).
  assert (k = k') by (apply (proj1 (NoDup_nth (findex f) 0%Z) D); auto; congruence). subst k'.
  eexists; eexists. split; [apply K3, Hp|]. split; [apply K3', Hp|]. split; [apply sqrt_pos|]. rewrite <- Em, <- Ep. apply sqrt_le_1_alt. apply winsor_mono; [apply HS|exact Ht].
Qed.
