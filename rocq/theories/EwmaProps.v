(** * Lemmas behind the property theorems about ewma.py. *)
From Coq Require Import String Reals Lra Psatz List Bool ZArith Arith Lia Permutation.
From Verif Require Import Num Py ListFacts Ewma EwmaTot EwmaPrefix EwmaEquiv XRFacts Spec SpecEwma EwmaReal EwmaTab EwmaFin.
Import ListNotations.
Local Open Scope R_scope.

Lemma valid_good {N : Num} f : valid_returns f -> good f.
Proof. intros [[H1 _] [H2 _]]; split; auto using increasing_NoDup. Qed.

Lemma settings_usable P hv hc h1 h2 rc : settings P hv hc h1 h2 rc -> usable P hv hc h1 h2 rc.
Proof.
  intros (Hv & Hc & H1 & H2 & Hcl).
  assert (G : forall o d h a, halflife_or o d h -> halflife_is a d -> or_else o a = Some (Fin h) /\ 0 < h).
  { intros o d h a [[[->| ->] ->]|[-> Hh]] [-> Hd]; unfold or_else, truthy; auto.
    - cbn. destruct (Req_EM_T 0 0); [auto|lra].
    - cbn. destruct (Req_EM_T h 0); [lra|auto]. }
  split; auto.
  - eapply G; eauto.
  - eapply G; eauto.
  - unfold clip_is in Hcl. destruct rc as [c|].
    + destruct Hcl as [-> Hne]. cbn. destruct (Req_EM_T c 0); [lra|auto].
    + destruct Hcl as [->| ->]; cbn; auto. destruct (Req_EM_T 0 0); [auto|lra].
Qed.

Lemma entry_n0 f k j : length (findex f) = length (fvals f) -> Forall (fun r => length r = length (fcols f)) (fvals f) ->
  (k < length (findex f))%nat -> (j < length (fcols f))%nat ->
  nth j (nth k (fvals f) []) (n0 (Num:=XR)) = entry f k j.
Proof.
  intros H1 H2 Hk Hj. unfold entry. apply nth_indep. rewrite (Forall_nth_lt _ _ _ _ H2) by lia. auto.
Qed.

(** A frame of finite/missing returns is, after filling, a tabulated finite frame. *)
Lemma prep_returns P f x : valid_returns f -> returns_are (nan_to_num P) f x ->
  prep P f = ffin (findex f) (fcols f) x.
Proof.
  intros [[H1 H2] _] Hx. rewrite (ftab_of f H1 H2) at 1.
  unfold prep, ffin. destruct (nan_to_num P) eqn:En.
  - unfold ffillna0. rewrite fmap_ftab. apply ftab_ext. intros j k Hj Hk.
    rewrite entry_n0 by auto.
    destruct (Hx k j Hk Hj) as [E|(E & _ & E0)]; rewrite E; [reflexivity|]. cbn. f_equal; auto.
  - apply ftab_ext. intros j k Hj Hk. rewrite entry_n0 by auto.
    destruct (Hx k j Hk Hj) as [E|(_ & E & _)]; [exact E|discriminate].
Qed.

Lemma prep_idem P f : prep P (prep P f) = prep P f.
Proof.
  unfold prep. destruct (nan_to_num P); auto. unfold ffillna0, fmap. simpl. f_equal.
  rewrite map_map. apply map_ext. intros r. rewrite map_map. apply map_ext. intros x. destruct x; reflexivity.
Qed.

Lemma iterated_prep {N : Num} P f : iterated_ewma P f =
  (do '(returns, returns_mean) <- center (prep P f) (or_else (mu_halflife1 P) (vola_halflife P)) 0 (use_mean P);
    do vola <- volatility returns (vola_halflife P) (min_periods_vola P) (p_clip_at P);
    let adj := adjusted P returns vola in
    do '(adj, adj_mean) <- center adj (or_else (mu_halflife2 P) (cov_halflife P)) 0 (use_mean P);
    do covs <- ewma_cov adj (cov_halflife P) (min_periods_cov P);
    mapM (fun p =>
            let t := fst p in
            do v <- loc_or_raise vola t;
            do m <- (if use_mean P
                     then do m1 <- loc_or_raise returns_mean t;
                          do m2 <- loc_or_raise adj_mean t;
                          Ok (scale_mean v m1 m2)
                     else Ok (map (fun _ => n0) (fcols returns)));
            Ok (mkIEWMA t m (scale_cov v (snd p)) v)) covs).
Proof. reflexivity. Qed.

Lemma iterated_ewma_prep P f : iterated_ewma P f = iterated_ewma P (prep (N := XR) P f).
Proof. rewrite !iterated_prep, prep_idem. reflexivity. Qed.

(** Explicit output for user-level hypotheses. *)
Lemma iterated_explicit P f x hv hc h1 h2 rc :
  settings P hv hc h1 h2 rc -> valid_returns f -> returns_are (nan_to_num P) f x ->
  iterated_ewma P f =
  (let K := kp P hv h1 rc (findex f) (fcols f) x in
   if isnil K then Raise IndexError
   else Ok (map (pitem P hv hc h1 h2 rc (findex f) (fcols f) x) (late (min_periods_cov P) (length K)))).
Proof.
  intros HS Hf Hx. rewrite iterated_ewma_prep, (prep_returns P f x Hf Hx).
  apply iterated_ewma_ffin.
  - apply settings_usable; auto.
  - destruct Hf as (_ & _ & H). destruct (fcols f); [congruence|simpl; lia].
  - destruct Hf as (_ & H & _). apply increasing_NoDup; auto.
Qed.

Section Out.
  Variables (P : params (N := XR)) (f : frame time) (x : nat -> nat -> R) (hv hc h1 h2 : R) (rc : option R).
  Hypothesis HS : settings P hv hc h1 h2 rc.
  Hypothesis Hf : valid_returns f.
  Hypothesis Hx : returns_are (nan_to_num P) f x.

  Let n := length (fcols f).
  Let K := kp P hv h1 rc (findex f) (fcols f) x.
  Let HU := settings_usable _ _ _ _ _ _ HS.

  Lemma out_item outs o : iterated_ewma P f = Ok outs -> In o outs ->
    exists i, (i < length K)%nat /\ (min_periods_cov P <= i + 1)%nat /\
              o = pitem P hv hc h1 h2 rc (findex f) (fcols f) x i.
  Proof.
    rewrite (iterated_explicit P f x hv hc h1 h2 rc) by auto. cbv zeta. fold K.
    destruct (isnil K); [discriminate|]. intros E Hin. inversion E; subst; clear E.
    apply in_map_iff in Hin. destruct Hin as (i & <- & Hi). exists i. split; [eapply late_lt; eauto|].
    split; auto. apply filter_In in Hi. apply Nat.leb_le, Hi.
  Qed.

  Lemma cov_at_pitem i p q : (p < n)%nat -> (q < n)%nat ->
    cov_at (pitem P hv hc h1 h2 rc (findex f) (fcols f) x i) p q =
    pcov P hv hc h1 h2 rc (findex f) (fcols f) x i p q.
  Proof. intros. unfold cov_at, pitem. cbn [icov fvals]. apply mtab_nth; auto. Qed.
  Lemma vol_at_pitem i p : (p < n)%nat ->
    vol_at (pitem P hv hc h1 h2 rc (findex f) (fcols f) x i) p =
    Fin (pv P hv h1 rc x p (kpos P hv h1 rc (findex f) (fcols f) x i)).
  Proof.
    intros. unfold vol_at, pitem. cbn [ivol]. rewrite (nth_map_lt _ _ _ 0%nat) by (rewrite seq_length; auto).
    rewrite nth_seq0; auto.
  Qed.

  (** ** Covariance structure (C05) *)
  Let pcv := pc P hv hc h1 h2 rc (findex f) (fcols f) x.
  Let bc := decay hc.

  Lemma pcv_psd (i m : nat) (y : nat -> R) :
    0 <= rsum m (fun p => rsum m (fun q => y p * y q * pcv i p q)).
  Proof.
    set (a := pa P hv h1 h2 rc (findex f) (fcols f) x).
    assert (E : rsum m (fun p => rsum m (fun q => y p * y q * pcv i p q)) =
                ewavg bc (fun s => rsum m (fun p => y p * a p s) * rsum m (fun p => y p * a p s)) i).
    { rewrite ewavg_weights.
      transitivity (rsum m (fun p => rsum m (fun q => rsum (S i) (fun s => eweight bc i s * (y p * a p s * (y q * a q s)))))).
      - apply rsum_ext; intros p _. apply rsum_ext; intros q _. unfold pcv, pc. rewrite ewavg_weights.
        rewrite <- rsum_scal. apply rsum_ext; intros s _. unfold a, bc. ring.
      - rewrite (rsum_ext m _ (fun p => rsum (S i) (fun s => rsum m (fun q => eweight bc i s * (y p * a p s * (y q * a q s)))))) by (intros; apply rsum_swap).
        rewrite rsum_swap. apply rsum_ext; intros s _.
        rewrite (rsum_ext m _ (fun p => (eweight bc i s * rsum m (fun q => y q * a q s)) * (y p * a p s))).
        + rewrite rsum_scal. ring.
        + intros p _. rewrite (rsum_ext m _ (fun q => (eweight bc i s * (y p * a p s)) * (y q * a q s))) by (intros; ring).
          rewrite rsum_scal. ring. }
    rewrite E. apply ewavg_nonneg; [apply (hb_c _ _ _ _ _ _ HU)|]. intros; nra.
  Qed.

  Lemma pcv_nonneg i p : 0 <= pcv i p p.
  Proof. apply (pc_nonneg P hv hc h1 h2 rc HU). Qed.
  Lemma pcv_sym i p q : pcv i p q = pcv i q p.
  Proof.
    unfold pcv, pc. rewrite !ewavg_weights. apply rsum_ext; intros; ring.
  Qed.

  (** |c_pq| <= sqrt c_pp sqrt c_qq *)
  Lemma pcv_cs i p q : p <> q -> 0 < pcv i p p -> 0 < pcv i q q ->
    - 1 <= pcv i p q / (sqrt (pcv i p p) * sqrt (pcv i q q)) <= 1.
  Proof.
    intros Hpq Hp Hq. set (sp := sqrt (pcv i p p)). set (sq := sqrt (pcv i q q)).
    assert (Hsp : 0 < sp) by (apply sqrt_lt_R0; auto). assert (Hsq : 0 < sq) by (apply sqrt_lt_R0; auto).
    assert (Ep : pcv i p p = sp * sp) by (symmetry; apply sqrt_sqrt; lra).
    assert (Eq : pcv i q q = sq * sq) by (symmetry; apply sqrt_sqrt; lra).
    assert (G : forall e, 0 <= 2 + 2 * (e * (pcv i p q / (sp * sq))) \/ e * e <> 1).
    { intros e. destruct (Req_dec (e * e) 1) as [He|]; [left|auto].
      set (m := S (Nat.max p q)).
      set (y := fun j => if Nat.eqb j p then / sp else if Nat.eqb j q then e / sq else 0).
      pose proof (pcv_psd i m y) as H.
      assert (yp : y p = / sp) by (unfold y; rewrite Nat.eqb_refl; auto).
      assert (yq : y q = e / sq).
      { unfold y. destruct (Nat.eqb_spec q p); [congruence|]. rewrite Nat.eqb_refl; auto. }
      assert (y0 : forall j, j <> p -> j <> q -> y j = 0).
      { intros j H1 H2. unfold y. destruct (Nat.eqb_spec j p); [congruence|]. destruct (Nat.eqb_spec j q); [congruence|auto]. }
      assert (S2 : forall g, (forall j, j <> p -> j <> q -> g j = 0) -> rsum m g = g p + g q).
      { intros g Hg.
        rewrite (rsum_ext m g (fun j => (if Nat.eqb j p then g p else 0) + (if Nat.eqb j q then g q else 0))).
        - rewrite rsum_plus. f_equal.
          + rewrite (rsum_single m _ p); [rewrite Nat.eqb_refl; auto| |]. unfold m; lia.
            intros k _ Hk. destruct (Nat.eqb_spec k p); congruence.
          + rewrite (rsum_single m _ q); [rewrite Nat.eqb_refl; auto| |]. unfold m; lia.
            intros k _ Hk. destruct (Nat.eqb_spec k q); congruence.
        - intros j _. destruct (Nat.eqb_spec j p) as [Ejp|Ejp], (Nat.eqb_spec j q) as [Ejq|Ejq].
          + congruence.
          + rewrite Ejp; lra.
          + rewrite Ejq; lra.
          + rewrite Hg by auto; lra. }
      rewrite S2 in H.
      2:{ intros j H1 H2. apply rsum_zero. intros. rewrite y0 by auto. ring. }
      rewrite (S2 (fun q0 => y p * y q0 * pcv i p q0)) in H by (intros j H1 H2; rewrite (y0 j) by auto; ring).
      rewrite (S2 (fun q0 => y q * y q0 * pcv i q q0)) in H by (intros j H1 H2; rewrite (y0 j) by auto; ring).
      rewrite yp, yq, (pcv_sym i q p), Ep, Eq in H.
      replace (2 + 2 * (e * (pcv i p q / (sp * sq)))) with
        (/ sp * / sp * (sp * sp) + / sp * (e / sq) * pcv i p q + (e / sq * / sp * pcv i p q + e / sq * (e / sq) * (sq * sq))); auto.
      field_simplify_eq; [|lra].
      replace (e ^ 2) with 1 by (simpl; lra). ring. }
    destruct (G 1) as [G1|G1]; [|lra]. destruct (G (-1)) as [G2|G2]; [|lra]. lra.
  Qed.

  Theorem covariance_structure outs o : iterated_ewma P f = Ok outs -> In o outs ->
    (forall p q, (p < n)%nat -> (q < n)%nat -> cov_at o p q = cov_at o q p) /\
    (forall p, (p < n)%nat -> exists v, vol_at o p = Fin v /\ 0 <= v /\ (cov_at o p p = NaN \/ cov_at o p p = Fin (v * v))) /\
    (forall p q, (p < n)%nat -> (q < n)%nat ->
       (cov_at o p q = NaN <-> cov_at o p p = NaN \/ cov_at o q q = NaN) /\
       (forall s vp vq, cov_at o p q = Fin s -> vol_at o p = Fin vp -> vol_at o q = Fin vq -> - (vp * vq) <= s <= vp * vq) /\
       (exists s, cov_at o p q = NaN \/ cov_at o p q = Fin s)) /\
    (forall z : nat -> R, (forall p, (p < n)%nat -> cov_at o p p = NaN -> z p = 0) ->
       0 <= rsum n (fun p => rsum n (fun q => z p * z q * xval (cov_at o p q)))).
  Proof.
    intros HO Hin. destruct (out_item outs o HO Hin) as (i & Hi & _ & ->).
    set (v := fun p => pv P hv h1 rc x p (kpos P hv h1 rc (findex f) (fcols f) x i)).
    assert (Hv : forall p, 0 <= v p) by (intros; apply pv_nonneg).
    assert (EC : forall p q, (p < n)%nat -> (q < n)%nat ->
      cov_at (pitem P hv hc h1 h2 rc (findex f) (fcols f) x i) p q =
      if Req_EM_T (pcv i p p) 0 then NaN else if Req_EM_T (pcv i q q) 0 then NaN else
      Fin (v p * (pcv i p q / (sqrt (pcv i p p) * sqrt (pcv i q q))) * v q)).
    { intros p q Hp Hq. rewrite cov_at_pitem by auto. reflexivity. }
    assert (Ediag : forall p, (p < n)%nat -> pcv i p p <> 0 ->
      v p * (pcv i p p / (sqrt (pcv i p p) * sqrt (pcv i p p))) * v p = v p * v p).
    { intros p Hp Hne. rewrite sqrt_sqrt by apply pcv_nonneg. field; auto. }
    split; [|split; [|split]].
    - intros p q Hp Hq. rewrite !EC by auto. rewrite (pcv_sym i q p).
      destruct (Req_EM_T (pcv i p p) 0), (Req_EM_T (pcv i q q) 0); auto. f_equal.
      unfold Rdiv. rewrite (Rmult_comm (sqrt (pcv i q q))). ring.
    - intros p Hp. exists (v p). rewrite vol_at_pitem by auto. split; [reflexivity|]. split; auto.
      rewrite EC by auto. destruct (Req_EM_T (pcv i p p) 0); [left; auto|right]. f_equal. apply Ediag; auto.
    - intros p q Hp Hq. split; [|split].
      + rewrite !EC by auto. destruct (Req_EM_T (pcv i p p) 0), (Req_EM_T (pcv i q q) 0);
          split; intros H; auto; try discriminate; destruct H; discriminate.
      + intros s vp vq. rewrite EC, !vol_at_pitem by auto. fold (v p) (v q).
        destruct (Req_EM_T (pcv i p p) 0) as [|H1]; [discriminate|].
        destruct (Req_EM_T (pcv i q q) 0) as [|H2]; [discriminate|].
        intros E1 E2 E3. inversion E1; inversion E2; inversion E3; subst. clear E1 E2 E3.
        pose proof (Hv p). pose proof (Hv q). assert (0 <= v p * v q) by (apply Rmult_le_pos; auto).
        set (r := pcv i p q / (sqrt (pcv i p p) * sqrt (pcv i q q))).
        assert (- 1 <= r <= 1).
        { destruct (Nat.eq_dec p q) as [->|Hne].
          - assert (r = 1); [|lra]. unfold r. rewrite sqrt_sqrt by apply pcv_nonneg. field; auto.
          - apply pcv_cs; auto; [pose proof (pcv_nonneg i p)|pose proof (pcv_nonneg i q)]; lra. }
        replace (v p * r * v q) with (v p * v q * r) by ring. split; nra.
      + rewrite EC by auto. destruct (Req_EM_T (pcv i p p) 0); [exists 0; auto|].
        destruct (Req_EM_T (pcv i q q) 0); [exists 0; auto|]. eexists; right; reflexivity.
    - intros z Hz.
      set (y := fun p => if Req_EM_T (pcv i p p) 0 then 0 else z p * v p / sqrt (pcv i p p)).
      rewrite (rsum_ext n _ (fun p => rsum n (fun q => y p * y q * pcv i p q))); [apply pcv_psd|].
      intros p Hp. apply rsum_ext. intros q Hq. rewrite EC by auto. unfold y.
      destruct (Req_EM_T (pcv i p p) 0); [simpl; ring|].
      destruct (Req_EM_T (pcv i q q) 0); [simpl; ring|]. cbn [xval].
      assert (0 < sqrt (pcv i p p)) by (apply sqrt_lt_R0; pose proof (pcv_nonneg i p); lra).
      assert (0 < sqrt (pcv i q q)) by (apply sqrt_lt_R0; pose proof (pcv_nonneg i q); lra).
      field; lra.
  Qed.
End Out.
