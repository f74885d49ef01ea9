(** * C08: without NaN filling one missing return poisons the asset forever. *)
From Coq Require Import String Reals Lra Psatz List Bool ZArith Arith Lia.
From Verif Require Import Num Py ListFacts Ewma EwmaTot EwmaPrefix EwmaEquiv XRFacts Spec SpecEwma EwmaReal EwmaTab EwmaFin EwmaProps.
Import ListNotations.

Lemma xmul_nan_l x : xmul NaN x = NaN. Proof. reflexivity. Qed.
Lemma xadd_nan_r x : xadd x NaN = NaN. Proof. destruct x; auto. Qed.

Lemma upd_nan_e b mp c k x : upd (N := XR) b mp c k NaN x = NaN.
Proof. unfold upd. destruct (truthy c); [destruct (_ <=? _)|]; reflexivity. Qed.
Lemma upd_nan_x b mp c k e : upd (N := XR) b mp c k e NaN = NaN.
Proof.
  unfold upd, npclip. cbn [nadd nsub nmul ndiv nopp nmin nmax XR].
  assert (E : xmin (xmax NaN (xmul (xopp match truthy c with Some c => c | None => NaN end) e)) (xmul match truthy c with Some c => c | None => NaN end e) = NaN) by reflexivity.
  destruct (truthy c) as [c'|]; [destruct (_ <=? _); [rewrite E|]|];
    unfold xsub; cbn [xadd]; rewrite xmul_nan; cbn [xdiv]; apply xadd_nan_r.
Qed.

Lemma nst_nan b mp c u p k : u p = NaN -> p <= k -> nst (N := XR) b mp c u k = NaN.
Proof.
  intros Hp. induction k; intros Hk.
  - replace p with 0 in Hp by lia. exact Hp.
  - change (nst b mp c u (S k)) with (upd b mp c (S k) (nst b mp c u k) (u (S k))).
    destruct (Nat.eq_dec p (S k)) as [->|]; [rewrite Hp; apply upd_nan_x|].
    rewrite IHk by lia. apply upd_nan_e.
Qed.
Lemma msk_nan mp k : msk (N := XR) mp k NaN = NaN.
Proof. unfold msk. destruct (_ <? _); reflexivity. Qed.

Lemma nth_map2_nan {A B} (g : A -> B -> xr) l1 l2 k : (forall a b, g a b = NaN) -> nth k (map2 g l1 l2) NaN = NaN.
Proof. intros H. revert l2 k; induction l1; destruct l2, k; simpl; auto. Qed.
Lemma nth_map2_nan_l {B} (g : xr -> B -> xr) l1 l2 k :
  (forall b, g NaN b = NaN) -> nth k l1 NaN = NaN -> nth k (map2 g l1 l2) NaN = NaN.
Proof.
  intros H. revert l2 k; induction l1; destruct l2, k; simpl; auto. intros ->; auto.
Qed.
Lemma nth_map2_nan_r {A} (g : A -> xr -> xr) l1 l2 k :
  (forall a, g a NaN = NaN) -> nth k l2 NaN = NaN -> nth k (map2 g l1 l2) NaN = NaN.
Proof.
  intros H. revert l2 k; induction l1; destruct l2, k; simpl; auto. intros ->; auto.
Qed.

Lemma nth_map2_rows (W V : list xr) (rows : list (list xr)) (g : xr -> xr -> xr -> xr) j q :
  nth j V NaN = NaN -> (forall x y, g NaN x y = NaN) ->
  nth q (nth j (map2 (fun vi row => map2 (g vi) row W) V rows) []) NaN = NaN.
Proof.
  intros Hv Hg. revert V rows Hv. induction j; intros V rows HV; destruct V as [|v V]; destruct rows as [|r rows]; simpl in *;
    try (destruct q; reflexivity); auto.
  subst v. apply nth_map2_nan; auto.
Qed.
Lemma nth_map2_cols (vola V : list xr) (rows : list (list xr)) (g : xr -> xr -> xr -> xr) j q :
  nth j vola NaN = NaN -> (forall x y, g x y NaN = NaN) ->
  nth j (nth q (map2 (fun vi row => map2 (g vi) row vola) V rows) []) NaN = NaN.
Proof.
  intros Hv Hg. revert rows q. induction V; intros rows q; [destruct q, j; reflexivity|].
  destruct rows; [destruct q, j; reflexivity|]. destruct q; simpl; auto. apply nth_map2_nan_r; auto.
Qed.

Lemma scale_cov_nan vola m j q : nth j vola NaN = NaN ->
  nth q (nth j (fvals (scale_cov (N := XR) vola m)) []) NaN = NaN /\
  nth j (nth q (fvals (scale_cov (N := XR) vola m)) []) NaN = NaN.
Proof.
  intros Hv. unfold scale_cov. cbn [fvals]. split.
  - apply (nth_map2_rows _ _ _ (fun vi x vj => nmul (nmul vi x) vj)); auto.
  - apply (nth_map2_cols _ _ _ (fun vi x vj => nmul (nmul vi x) vj)); auto. intros; apply xmul_nan.
Qed.

(** The centred returns of a poisoned asset. *)
Lemma ret_poisoned b m idx cols u p j : NoDup idx -> j < length cols -> p < length idx -> u j p = NaN ->
  m = true \/ (forall k, p < k -> True) ->
  exists w ks, fst (center_tot (N := XR) b m (ftab idx cols u)) = ptab idx cols w ks /\
    (forall k, In k ks -> k < length idx) /\ NoDup ks /\
    (m = true -> forall k, In k ks -> p <= k -> w j k = NaN) /\
    (m = false -> w = u /\ ks = seq 0 (length idx)).
Proof.
  intros Hd Hj Hp Hu _. destruct m; cbn [center_tot fst].
  - rewrite meanf_ftab. rewrite (ftab_ptab idx cols u).
    match goal with |- context [ptab idx cols ?v (filter ?pr ?l)] => set (V := v); set (KS := filter pr l) end.
    assert (HKS : forall k, In k KS -> k < length idx).
    { intros k Hk. apply filter_In in Hk. destruct Hk as [Hk _]. apply in_seq in Hk. lia. }
    rewrite falign_ptab; auto; [|intros q Hq; apply in_seq in Hq; lia].
    rewrite dropna_ptab. do 2 eexists. split; [reflexivity|].
    split; [intros k Hk; apply filter_In in Hk; destruct Hk as [Hk _]; apply in_seq in Hk; lia|].
    split; [apply NoDup_filter, seq_NoDup|]. split; [|discriminate].
    intros _ k _ Hk. cbv beta. destruct (existsb _ _); auto. unfold V.
    rewrite (nst_nan _ _ _ (u j) p k Hu Hk), msk_nan. cbn. unfold xsub. apply xadd_nan_r.
  - exists u, (seq 0 (length idx)). rewrite ftab_ptab. split; auto.
    split; [intros k Hk; apply in_seq in Hk; lia|]. split; [apply seq_NoDup|]. split; [discriminate|auto].
Qed.

Lemma vola_poisoned b mp c idx cols w ks j k : NoDup idx -> NoDup ks -> (forall k, In k ks -> k < length idx) ->
  j < length cols -> k < length idx ->
  (exists i, i < length ks /\ w j (nth i ks 0) = NaN /\ forall i', i' < length ks -> nth i' ks 0 = k -> i <= i') \/ ~ In k ks ->
  nth j (loc0 (vola_tot (N := XR) b mp c (ptab idx cols w ks)) (tm idx k)) NaN = NaN.
Proof.
  intros Hd Hdk Hks Hj Hk H. unfold vola_tot. rewrite ptab_ftab, fmap_ftab, meanf_ftab. rewrite map_length.
  match goal with |- context [ptab ?i cols ?v ?l] => set (I := i); set (V := v); set (KS := l) end.
  unfold loc0. match goal with |- context [floc ?a ?b] => destruct (floc a b) as [r|] eqn:E end; [|destruct j; reflexivity].
  unfold floc, fmap in E. cbn [findex fvals] in E. unfold ptab in E. cbn [findex fvals] in E.
  rewrite map_map in E.
  assert (LI : length I = length ks) by (unfold I; apply map_length).
  assert (HKS : forall i, In i KS -> i < length ks).
  { intros i Hi. unfold KS in Hi. apply filter_In in Hi. destruct Hi as [Hi _]. apply in_seq in Hi. lia. }
  (* the label found is that of some position i of KS *)
  assert (G : forall l, row_at (map (tm I) l) (map (fun x => map nsqrt (trow (length cols) V x)) l) (tm idx k) = Some r ->
     exists i, In i l /\ tm I i = tm idx k /\ r = map nsqrt (trow (length cols) V i)).
  { induction l as [|a l IH]; simpl; intros HR; [discriminate|]. destruct (Z.eqb_spec (tm idx k) (tm I a)) as [Et|].
    - inversion HR; subst. exists a; auto.
    - destruct (IH HR) as (i & H1 & H2 & H3). exists i; auto. }
  destruct (G KS E) as (i & Hi & Et & ->). pose proof (HKS i Hi) as Hil.
  assert (Ei : nth i ks 0 = k).
  { unfold tm, I in Et. rewrite (nth_map_lt _ ks i 0) in Et by auto.
    apply (proj1 (NoDup_nth idx 0%Z)); auto. apply Hks, nth_In; auto. }
  rewrite map_trow, trow_nth by auto. cbn [nsqrt XR]. unfold V.
  destruct H as [(i0 & Hi0 & Hw & Hmin)|Hn].
  - rewrite (nst_nan _ _ _ _ i0 i).
    + rewrite msk_nan. reflexivity.
    + rewrite Hw. reflexivity.
    + apply Hmin; auto.
  - exfalso. apply Hn. rewrite <- Ei. apply nth_In; auto.
Qed.

Lemma poison P f outs o p k j q :
  valid_returns f -> nan_to_num P = false -> iterated_ewma P f = Ok outs -> In o outs ->
  j < length (fcols f) -> p <= k -> k < length (findex f) -> entry f p j = NaN -> itime o = nth k (findex f) 0%Z ->
  vol_at o j = NaN /\ cov_at o j q = NaN /\ cov_at o q j = NaN /\ (use_mean P = true -> mean_at o j = NaN).
Proof.
  intros Hf Hnan HO Hin Hj Hpk Hk He Ht.
  destruct (iterated_betas _ _ _ HO) as (b1 & bv & b2 & bc & Hb).
  pose proof (valid_good f Hf) as Hg. destruct Hf as [[HL HR] _].
  rewrite (iterated_ewma_betas (N := XR) _ _ _ _ _ _ eq_refl Hg Hb) in HO.
  destruct (isnil _); [discriminate|]. inversion HO; subst outs; clear HO.
  unfold it_tot in Hin. apply in_map_iff in Hin. destruct Hin as ([t m] & <- & _).
  unfold item in *. cbn [itime fst snd] in *.
  assert (HV : nth j (loc0 (volaf_tot b1 bv P f) t) NaN = NaN).
  { unfold volaf_tot, ret_tot, prep. rewrite Hnan. rewrite (ftab_of f HL HR).
    set (u := fun j k => nth j (nth k (fvals f) []) n0).
    assert (Hu : u j p = NaN) by (unfold u; rewrite entry_n0; auto; lia).
    destruct Hg as [_ Hd].
    destruct (ret_poisoned b1 (use_mean P) (findex f) (fcols f) u p j Hd Hj ltac:(lia) Hu ltac:(auto)) as (w & ks & Ew & Hks & Hdk & H1 & H2).
    rewrite Ew, Ht. apply vola_poisoned; auto.
    destruct (use_mean P).
    - destruct (in_dec Nat.eq_dec k ks) as [Hik|]; [left|right; auto].
      destruct (In_nth _ _ 0 Hik) as (i & Hi & Ei). exists i. split; auto. split; [rewrite Ei; apply H1; auto|].
      intros i' Hi' Ei'. assert (i = i'); [|lia]. apply (proj1 (NoDup_nth ks 0)); auto. congruence.
    - destruct (H2 eq_refl) as [-> ->]. left. exists p. rewrite seq_length. split; [lia|].
      rewrite seq_nth by lia. split; [exact Hu|]. intros i' Hi' Ei'. rewrite seq_nth in Ei' by auto. lia. }
  unfold vol_at, cov_at, mean_at. cbn [ivol icov imean].
  destruct (scale_cov_nan (loc0 (volaf_tot b1 bv P f) t) m j q HV) as [C1 C2].
  split; auto. split; auto. split; auto. intros ->. unfold scale_mean.
  apply nth_map2_nan_r; [intros; apply xadd_nan_r|]. apply nth_map2_nan_l; auto.
Qed.
