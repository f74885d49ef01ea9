(** * Column transformations commute with every stage of the ewma pipeline.

    One statement covers both re-ordering of the assets (any arithmetic) and rescaling of each asset
    (exact arithmetic): column [q] of the input is moved by the permutation [p] and mapped by
    [phi q]. *)
From Coq Require Import String List Bool ZArith Arith Lia Permutation.
From Verif Require Import Num Py ListFacts Ewma EwmaTot EwmaPrefix.
Import ListNotations.

(** All rows have [n] entries. *)
Notation rows_len n l := (Forall (fun r => length r = n) l).
Ltac finv H := let a := fresh "Ha" in let b := fresh "Hb" in
  pose proof (Forall_inv H) as a; pose proof (Forall_inv_tail H) as b; clear H; simpl in a.

Section Width.
  Context {N : Num}.
  Variable n : nat.

  Definition fw (f : frame time) : Prop := good f /\ rows_len n (fvals f).

  Lemma rows_len_map (g : num -> num) l : rows_len n l -> rows_len n (map (map g) l).
  Proof. rewrite Forall_map; apply Forall_impl; intros; rewrite map_length; auto. Qed.

  Lemma fw_fmap g f : fw f -> fw (fmap g f).
  Proof. intros [H1 H2]; split; [apply good_fmap; auto|]. apply rows_len_map; auto. Qed.

  Lemma loop_len b mp clip k e y :
    length e = n -> rows_len n y ->
    rows_len n (general_loop map2 b (fun x : vec => x) mp clip k e y).
  Proof.
    revert k e; induction y as [|r y IH]; simpl; intros k e He Hy; [constructor|].
    finv Hy. constructor; [rewrite map2_length; lia|]. apply IH; auto. rewrite map2_length; lia.
  Qed.

  Lemma states_len b mp clip y : rows_len n y -> rows_len n (states map2 b (fun x : vec => x) mp clip y).
  Proof.
    destruct y; simpl; auto. intros Hy; finv Hy. constructor; auto. apply loop_len; auto.
  Qed.

  Lemma mask_from_len mp k l : rows_len n l -> rows_len n (mask_from (@map num num) mp k l).
  Proof.
    revert k; induction l; simpl; intros k H; auto. inversion H; subst. constructor; [|apply IHl; auto].
    unfold masked. destruct (_ <? _); rewrite ?map_length; auto.
  Qed.

  Lemma rows_len_combine_filter (P : time * vec -> bool) ti l :
    rows_len n l -> rows_len n (map snd (filter P (combine ti l))).
  Proof.
    intros H. apply Forall_forall. intros r Hr. apply in_map_iff in Hr. destruct Hr as ([t r'] & <- & Hr).
    apply filter_In in Hr. destruct Hr as [Hr _]. apply in_combine_r in Hr.
    rewrite Forall_forall in H. apply H; auto.
  Qed.

  Lemma fw_meanf b mp clip f : fw f -> fw (meanf_tot b mp clip f).
  Proof.
    intros [H1 H2]; split; [apply good_meanf; auto|]. simpl. apply rows_len_combine_filter.
    apply mask_from_len, states_len; auto.
  Qed.

  Lemma fw_vola b mp clip f : fw f -> fw (vola_tot b mp clip f).
  Proof. intros; apply fw_fmap, fw_meanf, fw_fmap; auto. Qed.

  Lemma row_at_len idx l t r : rows_len n l -> row_at idx l t = Some r -> length r = n.
  Proof.
    intros H Hr. apply row_at_In, in_combine_r in Hr. rewrite Forall_forall in H; auto.
  Qed.

  Lemma fw_falign op a b : fw a -> fw b -> fw (falign op a b).
  Proof.
    intros [H1 H2] [H3 H4]. split; [apply good_falign; auto|]. simpl.
    apply Forall_forall. intros r Hr. rewrite map2_combine in Hr. apply in_map_iff in Hr.
    destruct Hr as ([t r0] & <- & Hin). simpl. apply in_combine_r in Hin.
    rewrite Forall_forall in H2. specialize (H2 _ Hin).
    destruct (floc b t) eqn:E; [|rewrite map_length; auto].
    rewrite map2_length. rewrite (row_at_len _ _ _ _ H4 E). lia.
  Qed.

  Lemma fw_dropna f : fw f -> fw (fdropna_all f).
  Proof.
    intros [H1 H2]; split; [apply good_dropna; auto|]. simpl. apply rows_len_combine_filter; auto.
  Qed.

  Lemma fw_clip f c : fw f -> fw (clip f c).
  Proof. unfold clip; destruct (truthy c); intros; apply fw_dropna; auto; apply fw_fmap; auto. Qed.

  Lemma fw_center b m f : fw f -> fw (fst (center_tot b m f)).
  Proof. destruct m; auto. intros; apply fw_dropna, fw_falign; auto. apply fw_meanf; auto. Qed.
  Lemma fw_center2 b m f : fw f -> fw (snd (center_tot b m f)).
  Proof. destruct m; [apply fw_meanf | apply fw_fmap]. Qed.

  Lemma fw_adjusted P r v : fw r -> fw v -> fw (adjusted P r v).
  Proof. intros; apply fw_fmap, fw_clip, fw_falign; auto. Qed.

  Lemma fw_prep P f : fw f -> fw (prep P f).
  Proof. unfold prep; destruct (nan_to_num P); auto; apply fw_fmap. Qed.

  Lemma fw_ret b1 P f : fw f -> fw (ret_tot b1 P f).
  Proof. intros; apply fw_center, fw_prep; auto. Qed.
  Lemma fw_retmean b1 P f : fw f -> fw (retmean_tot b1 P f).
  Proof. intros; apply fw_center2, fw_prep; auto. Qed.
  Lemma fw_volaf b1 bv P f : fw f -> fw (volaf_tot b1 bv P f).
  Proof. intros; apply fw_vola, fw_ret; auto. Qed.
  Lemma fw_adj0 b1 bv P f : fw f -> fw (adj0_tot b1 bv P f).
  Proof. intros; apply fw_adjusted; [apply fw_ret|apply fw_volaf]; auto. Qed.
  Lemma fw_adj b1 bv b2 P f : fw f -> fw (adj_tot b1 bv b2 P f).
  Proof. intros; apply fw_center, fw_adj0; auto. Qed.
  Lemma fw_adjmean b1 bv b2 P f : fw f -> fw (adjmean_tot b1 bv b2 P f).
  Proof. intros; apply fw_center2, fw_adj0; auto. Qed.

  Lemma floc_len f t r : fw f -> floc f t = Some r -> length r = n.
  Proof. intros [_ H] Hr. eapply row_at_len; eauto. Qed.

  (** Square matrices of size n. *)
  Definition sq (m : mat) : Prop := length m = n /\ rows_len n m.

  Lemma sq_outer (x y : vec) : length x = n -> length y = n -> sq (outer x y).
  Proof.
    intros H1 H2; unfold sq, outer. rewrite map_length, Forall_map; split; auto.
    apply Forall_forall; intros; rewrite map_length; auto.
  Qed.

  Lemma sq_mmap2 g a b : sq a -> sq b -> sq (mmap2 g a b).
  Proof.
    intros [H1 H2] [H3 H4]; unfold sq, mmap2. rewrite map2_length. split; [lia|].
    clear H1 H3. revert b H4; induction a as [|r a IH]; intros [|r' b] H4; simpl; try constructor.
    - inversion H2; finv H4. rewrite map2_length; lia.
    - inversion H2; finv H4. apply IH; auto.
  Qed.

  Lemma sq_mmap g a : sq a -> sq (mmap g a).
  Proof. intros [H1 H2]; unfold sq, mmap; rewrite map_length; split; auto. apply rows_len_map; auto. Qed.

  Lemma loop_sq b mp clip k e y :
    sq e -> rows_len n y -> Forall sq (general_loop mmap2 b (fun x => outer x x) mp clip k e y).
  Proof.
    revert k e; induction y as [|r y IH]; simpl; intros k e He Hy; [constructor|].
    finv Hy. assert (sq (mmap2 (upd b mp clip k) e (outer r r))) by (apply sq_mmap2; auto; apply sq_outer; auto).
    constructor; auto.
  Qed.

  Lemma states_sq b mp clip y : rows_len n y -> Forall sq (states mmap2 b (fun x => outer x x) mp clip y).
  Proof.
    destruct y; simpl; auto. intros Hy; finv Hy.
    assert (sq (outer l l)) by (apply sq_outer; auto). constructor; auto. apply loop_sq; auto.
  Qed.

  Lemma mask_from_sq mp k l : Forall sq l -> Forall sq (mask_from mmap mp k l).
  Proof.
    revert k; induction l; simpl; intros k H; auto. inversion H; subst. constructor; [|apply IHl; auto].
    unfold masked. destruct (_ <? _); auto. apply sq_mmap; auto.
  Qed.
End Width.

Section Equiv.
  Context {N : Num}.
  Variables (n : nat) (p : list nat).
  Hypothesis Hp : Permutation p (seq 0 n).
  Hypothesis Hnan : nisnan nnan = true.

  Lemma p_lt q : In q p -> q < n.
  Proof. intros H. eapply Permutation_in in H; eauto. apply in_seq in H; lia. Qed.

  Definition tr (phi : nat -> num -> num) (r : vec) : vec := map (fun q => phi q (nth q r n0)) p.
  Definition trm (chi : nat -> nat -> num -> num) (m : mat) : mat :=
    map (fun q => map (fun q' => chi q q' (nth q' (nth q m []) n0)) p) p.
  Definition trc (cols : list string) : list string := map (fun q => nth q cols EmptyString) p.
  Definition trf (phi : nat -> num -> num) (f : frame time) : frame time :=
    mkFrame (findex f) (trc (fcols f)) (map (tr phi) (fvals f)).
  Definition ident : nat -> num -> num := fun _ x => x.
  Definition ident2 : nat -> nat -> num -> num := fun _ _ x => x.

  Definition nanpres (phi : nat -> num -> num) := forall q x, nisnan (phi q x) = nisnan x.

  Lemma forallb_p (P : nat -> bool) : forallb P p = forallb P (seq 0 n).
  Proof.
    apply eq_true_iff_eq. rewrite !forallb_forall. split; intros H q Hq; apply H.
    - eapply Permutation_in; [symmetry|]; eauto.
    - eapply Permutation_in; eauto.
  Qed.

  Lemma forallb_nth (P : num -> bool) (r : vec) :
    length r = n -> forallb (fun q => P (nth q r n0)) (seq 0 n) = forallb P r.
  Proof.
    intros HL. rewrite <- HL. clear HL. induction r as [|x r IH]; simpl; auto.
    f_equal. rewrite <- IH, <- seq_shift, forallb_map. reflexivity.
  Qed.

  Lemma all_nan_tr phi r : nanpres phi -> length r = n -> all_nan (tr phi r) = all_nan r.
  Proof.
    intros H HL. unfold all_nan, tr. rewrite forallb_map.
    rewrite (forallb_ext_in _ (fun q => nisnan (nth q r n0))) by (intros; apply H).
    rewrite forallb_p. apply forallb_nth; auto.
  Qed.

  Lemma map_tr phi psi (g : num -> num) (h : num -> num) r :
    (forall q x, g (phi q x) = psi q (h x)) -> length r = n -> map g (tr phi r) = tr psi (map h r).
  Proof.
    intros H HL. unfold tr. rewrite map_map. apply map_ext_in. intros q Hq.
    rewrite H. f_equal. symmetry. apply nth_map_lt. rewrite HL. apply p_lt; auto.
  Qed.

  Lemma map2_self {A B C} (g : B -> C -> A) (f1 : nat -> B) (f2 : nat -> C) l :
    map2 g (map f1 l) (map f2 l) = map (fun q => g (f1 q) (f2 q)) l.
  Proof. induction l; simpl; auto. f_equal; auto. Qed.

  Lemma map2_tr phi1 phi2 psi (g h : num -> num -> num) r1 r2 :
    (forall q x y, g (phi1 q x) (phi2 q y) = psi q (h x y)) -> length r1 = n -> length r2 = n ->
    map2 g (tr phi1 r1) (tr phi2 r2) = tr psi (map2 h r1 r2).
  Proof.
    intros H H1 H2. unfold tr. rewrite map2_self. apply map_ext_in. intros q Hq.
    rewrite H. f_equal. symmetry. pose proof (p_lt _ Hq). apply map2_nth; lia.
  Qed.

  (** Stage by stage. *)
  Lemma loop_tr phi b mp clip clip' k e y :
    (forall q k e x, upd b mp clip' k (phi q e) (phi q x) = phi q (upd b mp clip k e x)) ->
    length e = n -> rows_len n y ->
    general_loop map2 b (fun x : vec => x) mp clip' k (tr phi e) (map (tr phi) y) =
    map (tr phi) (general_loop map2 b (fun x : vec => x) mp clip k e y).
  Proof.
    intros Hu. revert k e; induction y as [|r y IH]; simpl; intros k e He Hy; auto.
    finv Hy.
    rewrite (map2_tr phi phi phi _ (upd b mp clip k)) by (auto; intros; lia).
    f_equal. apply IH; auto. rewrite map2_length; lia.
  Qed.

  Lemma states_tr phi b mp clip clip' y :
    (forall q k e x, upd b mp clip' k (phi q e) (phi q x) = phi q (upd b mp clip k e x)) ->
    rows_len n y ->
    states map2 b (fun x : vec => x) mp clip' (map (tr phi) y) =
    map (tr phi) (states map2 b (fun x : vec => x) mp clip y).
  Proof.
    intros Hu Hy. destruct y; simpl; auto. finv Hy. f_equal. apply loop_tr; auto.
  Qed.

  Lemma mask_from_tr phi mp k l :
    (forall q x, nmul (phi q x) nnan = phi q (nmul x nnan)) -> rows_len n l ->
    mask_from (@map num num) mp k (map (tr phi) l) = map (tr phi) (mask_from (@map num num) mp k l).
  Proof.
    intros H. revert k; induction l as [|e l IH]; simpl; intros k Hl; auto.
    finv Hl. rewrite IH by auto. f_equal. unfold masked. destruct (_ <? _); auto.
    apply map_tr; auto.
  Qed.

  Lemma combine_map_r {A B C} (g : B -> C) (l1 : list A) l2 :
    combine l1 (map g l2) = map (fun p => (fst p, g (snd p))) (combine l1 l2).
  Proof. revert l2; induction l1; intros [|y l2]; simpl; auto. f_equal; auto. Qed.

  Lemma filter_ext_in' {A} (P Q : A -> bool) l : (forall x, In x l -> P x = Q x) -> filter P l = filter Q l.
  Proof. apply filter_ext_in. Qed.

  Definition lin (phi : nat -> num -> num) b mp clip clip' : Prop :=
    nanpres phi /\
    (forall q k e x, upd b mp clip' k (phi q e) (phi q x) = phi q (upd b mp clip k e x)) /\
    (forall q x, nmul (phi q x) nnan = phi q (nmul x nnan)).

  Lemma meanf_tr phi b mp clip clip' f :
    lin phi b mp clip clip' -> fw n f -> meanf_tot b mp clip' (trf phi f) = trf phi (meanf_tot b mp clip f).
  Proof.
    intros (Hnp & Hu & Hm) [[H1 H2] H3]. unfold meanf_tot, mean_tot, gen_tot, toframe, trf. simpl.
    rewrite states_tr with (clip := clip) by auto. rewrite mask_from_tr by (auto; apply states_len; auto).
    rewrite combine_map_r, filter_map_comm, !map_map. simpl.
    assert (E : filter (fun x => negb (all_nan (tr phi (snd x))))
      (combine (findex f) (mask_from (@map num num) mp 0 (states map2 b (fun x : vec => x) mp clip (fvals f)))) =
      filter (fun x => negb (all_nan (snd x)))
      (combine (findex f) (mask_from (@map num num) mp 0 (states map2 b (fun x : vec => x) mp clip (fvals f))))).
    { apply filter_ext_in. intros [t r] Hin. simpl. f_equal. apply all_nan_tr; auto.
      apply in_combine_r in Hin.
      assert (Hl : rows_len n (mask_from (@map num num) mp 0 (states map2 b (fun x : vec => x) mp clip (fvals f))))
        by (apply mask_from_len, states_len; auto).
      rewrite Forall_forall in Hl; auto. }
    rewrite E. reflexivity.
  Qed.

  Lemma fmap_tr phi psi g h f :
    (forall q x, g (phi q x) = psi q (h x)) -> rows_len n (fvals f) -> fmap g (trf phi f) = trf psi (fmap h f).
  Proof.
    intros H Hl. unfold fmap, trf; simpl. f_equal. rewrite !map_map. apply map_ext_in.
    intros r Hr. apply map_tr; auto. rewrite Forall_forall in Hl; auto.
  Qed.

  Lemma floc_tr phi f t : floc (trf phi f) t = option_map (tr phi) (floc f t).
  Proof.
    unfold floc, trf; simpl. generalize (fvals f). induction (findex f) as [|i idx IH]; intros [|r l]; simpl; auto.
    destruct (t =? i)%Z; auto.
  Qed.

  Lemma falign_tr phi1 phi2 psi op a b :
    (forall q x y, op (phi1 q x) (phi2 q y) = psi q (op x y)) ->
    (forall q, psi q nnan = nnan) ->
    fw n a -> fw n b ->
    falign op (trf phi1 a) (trf phi2 b) = trf psi (falign op a b).
  Proof.
    intros H Hpn [Ha1 Ha2] Hb. 
    change (trf psi (falign op a b)) with
      (mkFrame (findex a) (trc (fcols a)) (map (tr psi) (fvals (falign op a b)))).
    unfold falign at 1. change (findex (trf phi1 a)) with (findex a).
    change (fvals (trf phi1 a)) with (map (tr phi1) (fvals a)). f_equal.
    unfold falign; cbn [fvals]. rewrite map_map2.
    assert (E : forall idx rows, rows_len n rows ->
       map2 (fun t r => match floc (trf phi2 b) t with
                        | Some r' => map2 op r r'
                        | None => map (fun _ => nnan) r end) idx (map (tr phi1) rows) =
       map2 (fun t r => tr psi match floc b t with
                        | Some r' => map2 op r r'
                        | None => map (fun _ => nnan) r end) idx rows).
    { induction idx as [|i idx IH]; intros [|r rows] Hr; simpl; auto.
      finv Hr. f_equal; auto. rewrite floc_tr.
      destruct (floc b i) as [r'|] eqn:E; simpl.
      - apply map2_tr; auto. eapply floc_len; eauto.
      - apply map_tr; auto. }
    apply E; auto.
  Qed.

  Lemma dropna_tr phi f : nanpres phi -> fw n f -> fdropna_all (trf phi f) = trf phi (fdropna_all f).
  Proof.
    intros Hnp [H1 H2]. unfold fdropna_all, trf; simpl.
    rewrite combine_map_r, filter_map_comm, !map_map. simpl.
    assert (E : filter (fun x => negb (all_nan (tr phi (snd x)))) (combine (findex f) (fvals f)) =
                filter (fun x => negb (all_nan (snd x))) (combine (findex f) (fvals f))).
    { apply filter_ext_in. intros [t r] Hin. simpl. f_equal. apply all_nan_tr; auto.
      apply in_combine_r in Hin. rewrite Forall_forall in H2; auto. }
    rewrite E. reflexivity.
  Qed.

  Lemma clip_tr f c : fw n f -> clip (trf ident f) c = trf ident (clip f c).
  Proof.
    intros H. unfold clip. destruct (truthy c) as [c'|].
    - rewrite (fmap_tr ident ident (clip1 c') (clip1 c')) by (auto; apply H).
      apply dropna_tr; [intros ? ?; reflexivity|]. apply fw_fmap; auto.
    - apply dropna_tr; auto. intros ? ?; reflexivity.
  Qed.

  (** The conditions on a column transformation: [phi] acts on returns, volatilities and means,
      [psi] on variances, [chi] on covariance entries. *)
  Record equivariant (phi psi : nat -> num -> num) (chi : nat -> nat -> num -> num) : Prop := {
    eq_nan : nanpres phi;
    eq_nan2 : nanpres psi;
    eq_zero : forall q, phi q n0 = n0;
    eq_nnan : forall q, phi q nnan = nnan;
    eq_sq : forall q x, nmul (phi q x) (phi q x) = psi q (nmul x x);
    eq_sqrt : forall q x, nsqrt (psi q x) = phi q (nsqrt x);
    eq_sub : forall q x y, nsub (phi q x) (phi q y) = phi q (nsub x y);
    eq_div : forall q x y, ndiv (phi q x) (phi q y) = ndiv x y;
    eq_add : forall q x v y, nadd (phi q x) (nmul (phi q v) y) = phi q (nadd x (nmul v y));
    eq_mask : forall q x, nmul (phi q x) nnan = phi q (nmul x nnan);
    eq_mask2 : forall q x, nmul (psi q x) nnan = psi q (nmul x nnan);
    eq_upd : forall b mp q k e x, upd b mp None k (phi q e) (phi q x) = phi q (upd b mp None k e x);
    eq_upd2 : forall b mp c q k e x, upd b mp c k (psi q e) (psi q x) = psi q (upd b mp c k e x);
    eq_chi : forall q q' v x v', nmul (nmul (phi q v) x) (phi q' v') = chi q q' (nmul (nmul v x) v')
  }.

  Lemma equivariant_ident : equivariant ident ident ident2.
  Proof. split; try (intros ? ?; reflexivity); intros; reflexivity. Qed.

  Section WithTransform.
    Variables (phi psi : nat -> num -> num) (chi : nat -> nat -> num -> num).
    Hypothesis HE : equivariant phi psi chi.

    Lemma center_tr b m f : fw n f -> fst (center_tot b m (trf phi f)) = trf phi (fst (center_tot b m f)).
    Proof.
      intros H. destruct m; [|reflexivity]. unfold center_tot; cbn [fst].
      rewrite (meanf_tr phi b 0 None None).
      - rewrite (falign_tr phi phi phi).
        + apply dropna_tr; [apply HE|]. apply fw_falign; auto. apply fw_meanf; auto.
        + apply HE.
        + apply HE.
        + auto.
        + apply fw_meanf; auto.
      - split; [|split]; intros; apply HE.
      - auto.
    Qed.

    Lemma center_tr2 b f : fw n f -> snd (center_tot b true (trf phi f)) = trf phi (snd (center_tot b true f)).
    Proof. intros H; apply meanf_tr; auto. split; [|split]; intros; apply HE. Qed.

    Lemma vola_tr b mp c f : fw n f -> vola_tot b mp c (trf phi f) = trf phi (vola_tot b mp c f).
    Proof.
      intros H. unfold vola_tot.
      rewrite (fmap_tr phi psi _ (fun x => nmul x x)) by (try apply H; apply HE).
      rewrite (meanf_tr psi b mp (sqclip c) (sqclip c)).
      - apply fmap_tr; [apply HE|]. apply (fw_meanf n b mp (sqclip c)). apply fw_fmap; auto.
      - split; [|split]; intros; apply HE.
      - apply fw_fmap; auto.
    Qed.

    Lemma fillna_tr ph f : nanpres ph -> (forall q, ph q n0 = n0) -> rows_len n (fvals f) ->
      ffillna0 (trf ph f) = trf ph (ffillna0 f).
    Proof.
      intros H1 H2 H3. unfold ffillna0. apply fmap_tr; auto. intros q x. rewrite H1.
      destruct (nisnan x); auto.
    Qed.

    Lemma adjusted_tr P r v : fw n r -> fw n v ->
      adjusted P (trf phi r) (trf phi v) = trf ident (adjusted P r v).
    Proof.
      intros Hr Hv. unfold adjusted.
      rewrite (falign_tr phi phi ident) by (auto; apply HE).
      rewrite clip_tr by (apply fw_falign; auto).
      apply fillna_tr; [intros ? ?; reflexivity|reflexivity|]. apply fw_clip, fw_falign; auto.
    Qed.

    Lemma prep_tr P f : fw n f -> prep P (trf phi f) = trf phi (prep P f).
    Proof.
      intros H. unfold prep. destruct (nan_to_num P); auto. apply fillna_tr; apply HE || apply H.
    Qed.

    (** Covariance states. *)
    Lemma outer_tr r : length r = n -> outer (tr ident r) (tr ident r) = trm ident2 (outer r r).
    Proof.
      intros HL. unfold outer, tr, trm. rewrite map_map. apply map_ext_in. intros q Hq.
      rewrite map_map. apply map_ext_in. intros q' Hq'. unfold ident, ident2.
      pose proof (p_lt _ Hq); pose proof (p_lt _ Hq').
      rewrite (nth_map_lt _ r q n0) by lia. rewrite (nth_map_lt _ r q' n0) by lia. reflexivity.
    Qed.

    Lemma sq_row m q : sq n m -> q < n -> length (nth q m []) = n.
    Proof. intros [H1 H2] Hq. apply (Forall_nth_lt (fun r => length r = n)); auto; lia. Qed.

    Lemma mmap2_nth g a b q q' : sq n a -> sq n b -> q < n -> q' < n ->
      nth q' (nth q (mmap2 g a b) []) n0 = g (nth q' (nth q a []) n0) (nth q' (nth q b []) n0).
    Proof.
      intros Ha Hb Hq Hq'. unfold mmap2. pose proof (sq_row a q Ha Hq). pose proof (sq_row b q Hb Hq).
      destruct Ha as [Ha _], Hb as [Hb _].
      rewrite (map2_nth _ a b q [] []) by lia. apply map2_nth; lia.
    Qed.

    Lemma mmap_nth g a q q' : sq n a -> q < n -> q' < n ->
      nth q' (nth q (mmap g a) []) n0 = g (nth q' (nth q a []) n0).
    Proof.
      intros Ha Hq Hq'. unfold mmap. pose proof (sq_row a q Ha Hq). destruct Ha as [Ha _].
      rewrite (nth_map_lt _ a q []) by lia. apply nth_map_lt; lia.
    Qed.

    Lemma mmap2_tr g a b : sq n a -> sq n b ->
      mmap2 g (trm ident2 a) (trm ident2 b) = trm ident2 (mmap2 g a b).
    Proof.
      intros Ha Hb. unfold mmap2 at 1, trm. rewrite map2_self. apply map_ext_in. intros q Hq.
      rewrite map2_self. apply map_ext_in. intros q' Hq'. unfold ident2.
      rewrite mmap2_nth; auto; apply p_lt; auto.
    Qed.

    Lemma mmap_tr g a : sq n a -> mmap g (trm ident2 a) = trm ident2 (mmap g a).
    Proof.
      intros Ha. unfold mmap at 1, trm. rewrite map_map. apply map_ext_in. intros q Hq.
      rewrite map_map. apply map_ext_in. intros q' Hq'. unfold ident2.
      rewrite mmap_nth; auto; apply p_lt; auto.
    Qed.

    Lemma loop_trm b mp c k e y : sq n e -> rows_len n y ->
      general_loop mmap2 b (fun x => outer x x) mp c k (trm ident2 e) (map (tr ident) y) =
      map (trm ident2) (general_loop mmap2 b (fun x => outer x x) mp c k e y).
    Proof.
      revert k e; induction y as [|r y IH]; simpl; intros k e He Hy; auto.
      finv Hy. rewrite outer_tr by auto.
      assert (sq n (outer r r)) by (apply sq_outer; auto).
      rewrite mmap2_tr by auto. f_equal. apply IH; auto. apply sq_mmap2; auto.
    Qed.

    Lemma states_trm b mp c y : rows_len n y ->
      states mmap2 b (fun x => outer x x) mp c (map (tr ident) y) =
      map (trm ident2) (states mmap2 b (fun x => outer x x) mp c y).
    Proof.
      intros Hy; destruct y; simpl; auto. finv Hy. rewrite outer_tr by auto. f_equal.
      apply loop_trm; auto. apply sq_outer; auto.
    Qed.

    Lemma mask_from_trm mp k l : Forall (sq n) l ->
      mask_from mmap mp k (map (trm ident2) l) = map (trm ident2) (mask_from mmap mp k l).
    Proof.
      revert k; induction l as [|e l IH]; simpl; intros k Hl; auto.
      finv Hl. rewrite IH by auto. f_equal. unfold masked. destruct (_ <? _); auto.
      apply mmap_tr; auto.
    Qed.

    Lemma all_nan_trm m : sq n m -> all_nan_mat (trm ident2 m) = all_nan_mat m.
    Proof.
      intros Hm. unfold all_nan_mat, trm. rewrite forallb_map.
      rewrite (forallb_ext_in _ (fun q => all_nan (nth q m []))).
      - rewrite forallb_p. destruct Hm as [Hm _]. rewrite <- Hm. clear. induction m as [|r m IH]; simpl; auto.
        f_equal. rewrite <- IH, <- seq_shift, forallb_map. reflexivity.
      - intros q Hq. change (all_nan (tr ident (nth q m [])) = all_nan (nth q m [])).
        apply all_nan_tr; [intros ? ?; reflexivity|]. apply sq_row; auto. apply p_lt; auto.
    Qed.

    Lemma cov_tr b mp f : fw n f ->
      cov_tot b mp (trf ident f) =
      map (fun q => (fst q, mkFrame (trc (fcols f)) (trc (fcols f)) (trm ident2 (fvals (snd q)))))
          (cov_tot b mp f).
    Proof.
      intros [[H1 H2] H3]. unfold cov_tot, gen_tot. simpl.
      rewrite states_trm by auto. rewrite mask_from_trm by (apply states_sq; auto).
      rewrite combine_map_r, filter_map_comm, !map_map. simpl.
      f_equal. apply filter_ext_in. intros [t m] Hin. simpl. f_equal. apply all_nan_trm.
      apply in_combine_r in Hin.
      assert (Hl : Forall (sq n) (mask_from mmap mp 0 (states mmap2 b (fun x => outer x x) mp None (fvals f))))
        by (apply mask_from_sq, states_sq; auto).
      rewrite Forall_forall in Hl; auto.
    Qed.

    (** scale_cov *)
    Lemma diagonal_nth m q : q < length m -> nth q (diagonal m) n0 = nth q (nth q m []) n0.
    Proof. intros H. unfold diagonal. rewrite (nth_map_lt _ _ q 0) by (rewrite seq_length; auto). rewrite nth_seq0; auto. Qed.
    Lemma diagonal_length m : length (diagonal m) = length m.
    Proof. unfold diagonal; rewrite map_length, seq_length; auto. Qed.

    (* nth of a permuted list at the position of q *)
    Lemma diagonal_trm m : sq n m -> diagonal (trm ident2 m) = tr ident (diagonal m).
    Proof.
      intros Hm. unfold diagonal at 1. unfold trm at 2. rewrite map_length.
      apply (list_eq_nth n0); [unfold tr; rewrite !map_length, seq_length; auto|].
      intros k Hk. rewrite map_length, seq_length in Hk.
      rewrite (nth_map_lt _ _ k 0) by (rewrite seq_length; auto). rewrite nth_seq0 by auto.
      unfold trm. rewrite (nth_map_lt _ p k 0) by auto. rewrite (nth_map_lt _ p k 0) by auto.
      unfold tr. rewrite (nth_map_lt _ p k 0) by auto. unfold ident, ident2.
      rewrite diagonal_nth; [reflexivity|]. destruct Hm as [Hm _]. rewrite Hm. apply p_lt, nth_In; auto.
    Qed.

    Lemma scale_cov_entry vola (m : frame string) q q' :
      sq n (fvals m) -> length vola = n -> q < n -> q' < n ->
      nth q' (nth q (fvals (scale_cov vola m)) []) n0 =
      nmul (nmul (nth q vola n0)
         (nmul (nmul (inv_vol (nth q (nth q (fvals m) []) n0)) (nth q' (nth q (fvals m) []) n0))
               (inv_vol (nth q' (nth q' (fvals m) []) n0))))
         (nth q' vola n0).
    Proof.
      intros Hm Hv Hq Hq'. pose proof (sq_row _ _ Hm Hq) as Hr. destruct Hm as [Hm Hm2].
      assert (Hlv : length (map inv_vol (diagonal (fvals m))) = n) by (rewrite map_length, diagonal_length; auto).
      unfold scale_cov; simpl.
      rewrite (map2_nth _ _ _ q n0 []) by (rewrite ?map2_length; lia).
      rewrite (map2_nth _ _ _ q' n0 n0).
      2:{ rewrite (map2_nth _ _ _ q n0 []) by lia. rewrite map2_length; lia. }
      2:{ lia. }
      rewrite (map2_nth _ _ _ q n0 []) by lia.
      rewrite (map2_nth _ _ _ q' n0 n0) by lia.
      rewrite !(nth_map_lt _ _ _ n0) by (rewrite diagonal_length; lia).
      rewrite !diagonal_nth by lia. reflexivity.
    Qed.

    Lemma scale_cov_sq vola (m : frame string) :
      sq n (fvals m) -> length vola = n -> sq n (fvals (scale_cov vola m)).
    Proof.
      intros [Hm Hm2] Hv. unfold scale_cov; simpl. unfold sq.
      rewrite !map2_length, map_length, diagonal_length. split; [lia|].
      apply Forall_forall. intros r Hr. rewrite map2_combine in Hr. apply in_map_iff in Hr.
      destruct Hr as ([v r'] & <- & Hr). simpl. rewrite map2_length. apply in_combine_r in Hr.
      rewrite map2_combine in Hr. apply in_map_iff in Hr.
      destruct Hr as ([v' r''] & <- & Hr). simpl. rewrite map2_length, map_length, diagonal_length.
      apply in_combine_r in Hr. rewrite Forall_forall in Hm2. rewrite (Hm2 _ Hr). lia.
    Qed.

    Lemma scale_cov_tr vola (m : frame string) :
      sq n (fvals m) -> length vola = n ->
      fvals (scale_cov (tr phi vola) (mkFrame (trc (findex m)) (trc (fcols m)) (trm ident2 (fvals m)))) =
      trm chi (fvals (scale_cov vola m)).
    Proof.
      intros Hm Hv. unfold scale_cov at 1; cbn [fvals findex fcols].
      rewrite diagonal_trm by auto. rewrite (map_tr ident ident inv_vol inv_vol); auto.
      2:{ rewrite diagonal_length. apply Hm. }
      unfold tr, trm. rewrite !map2_self. apply map_ext_in. intros q Hq. rewrite !map2_self.
      apply map_ext_in. intros q' Hq'. pose proof (p_lt _ Hq); pose proof (p_lt _ Hq').
      rewrite (eq_chi _ _ _ HE). rewrite scale_cov_entry by auto. unfold ident, ident2.
      destruct Hm as [Hm _].
      rewrite !(nth_map_lt _ (diagonal _) _ n0) by (rewrite diagonal_length; lia).
      rewrite !diagonal_nth by lia. reflexivity.
    Qed.

    Definition tri (o : IEWMA) : IEWMA :=
      mkIEWMA (itime o) (tr phi (imean o))
        (mkFrame (trc (findex (icov o))) (trc (fcols (icov o))) (trm chi (fvals (icov o))))
        (tr phi (ivol o)).

    Lemma loc0_tr f t r : floc f t = Some r -> loc0 (trf phi f) t = tr phi (loc0 f t).
    Proof. intros H. unfold loc0. rewrite floc_tr, H. reflexivity. Qed.
    Lemma loc0_trid f t r : floc f t = Some r -> loc0 (trf ident f) t = tr ident (loc0 f t).
    Proof. intros H. unfold loc0. rewrite floc_tr, H. reflexivity. Qed.
    Lemma loc0_len f t r : fw n f -> floc f t = Some r -> length (loc0 f t) = n.
    Proof. intros Hf H. unfold loc0. rewrite H. eapply floc_len; eauto. Qed.
  End WithTransform.

  (** Look-ups succeed at emitted times (shared with other developments). *)
  Lemma emitted_locs P f b1 bv b2 bc t m :
    good f -> In (t, m) (cov_tot bc (min_periods_cov P) (adj_tot b1 bv b2 P f)) ->
    (exists r, floc (volaf_tot b1 bv P f) t = Some r) /\
    (use_mean P = true -> exists r, floc (retmean_tot b1 P f) t = Some r) /\
    (use_mean P = true -> exists r, floc (adjmean_tot b1 bv b2 P f) t = Some r) /\
    In t (findex (adj_tot b1 bv b2 P f)).
  Proof.
    intros Hf Hin.
    assert (Ht : In t (findex (adj_tot b1 bv b2 P f))).
    { eapply cov_tot_fst; [apply good_adj; auto|]. apply in_map_iff. exists (t, m); split; eauto. }
    assert (Ht0 : In t (findex (adj0_tot b1 bv P f))) by (eapply center_index_incl; eauto).
    assert (Htr : In t (findex (ret_tot b1 P f))).
    { unfold adj0_tot, adjusted in Ht0. apply clip_index_incl in Ht0. exact Ht0. }
    split; [|split; [|split]]; auto.
    - eapply (clip_falign_loc _ _ _ _ _ Hnan); [apply good_ret; eauto|]. exact Ht0.
    - intros Em. unfold retmean_tot. unfold ret_tot in Htr. rewrite Em in *.
      apply center_true_loc; auto. apply good_prep; auto.
    - intros Em. unfold adjmean_tot. unfold adj_tot in Ht. rewrite Em in *.
      apply center_true_loc; auto. apply good_adj0; auto.
  Qed.

  Lemma cov_tot_sq P f b1 bv b2 bc t m :
    fw n f -> In (t, m) (cov_tot bc (min_periods_cov P) (adj_tot b1 bv b2 P f)) -> sq n (fvals m).
  Proof.
    intros Hf Hin. apply in_map_iff in Hin. destruct Hin as ([t' m'] & E & Hin). inversion E; subst; simpl.
    apply filter_In in Hin. destruct Hin as [Hin _]. apply in_combine_r in Hin.
    assert (Hl : Forall (sq n) (mask_from mmap (min_periods_cov P) 0 (states mmap2 bc (fun x => outer x x) (min_periods_cov P) None (fvals (adj_tot b1 bv b2 P f)))))
      by (apply mask_from_sq, states_sq, fw_adj; auto).
    rewrite Forall_forall in Hl; auto.
  Qed.

  Lemma trf_stages phi psi chi P f b1 bv b2 :
    equivariant phi psi chi -> fw n f ->
    ret_tot b1 P (trf phi f) = trf phi (ret_tot b1 P f) /\
    volaf_tot b1 bv P (trf phi f) = trf phi (volaf_tot b1 bv P f) /\
    adj0_tot b1 bv P (trf phi f) = trf ident (adj0_tot b1 bv P f) /\
    adj_tot b1 bv b2 P (trf phi f) = trf ident (adj_tot b1 bv b2 P f).
  Proof.
    intros HE Hf.
    assert (Ep : prep P (trf phi f) = trf phi (prep P f)) by (eapply prep_tr; eauto).
    assert (Er : ret_tot b1 P (trf phi f) = trf phi (ret_tot b1 P f)).
    { unfold ret_tot. rewrite Ep. eapply center_tr; eauto. apply fw_prep; auto. }
    assert (Ev : volaf_tot b1 bv P (trf phi f) = trf phi (volaf_tot b1 bv P f)).
    { unfold volaf_tot. rewrite Er. eapply vola_tr; eauto. apply fw_ret; auto. }
    assert (Ea0 : adj0_tot b1 bv P (trf phi f) = trf ident (adj0_tot b1 bv P f)).
    { unfold adj0_tot. rewrite Er, Ev. eapply adjusted_tr; eauto. apply fw_ret; auto. apply fw_volaf; auto. }
    assert (Ea : adj_tot b1 bv b2 P (trf phi f) = trf ident (adj_tot b1 bv b2 P f)).
    { unfold adj_tot. rewrite Ea0. eapply center_tr; [apply equivariant_ident|]. apply fw_adj0; auto. }
    auto.
  Qed.

  Theorem it_tot_tr phi psi chi P f b1 bv b2 bc :
    equivariant phi psi chi -> fw n f -> length (fcols f) = n ->
    it_tot b1 bv b2 bc P (trf phi f) = map (tri phi chi) (it_tot b1 bv b2 bc P f).
  Proof.
    intros HE Hf Hcols. unfold it_tot.
    assert (Ep : prep P (trf phi f) = trf phi (prep P f)) by (eapply prep_tr; eauto).
    destruct (trf_stages phi psi chi P f b1 bv b2 HE Hf) as (Er & Ev & Ea0 & Ea).
    rewrite Ea, cov_tr by (apply fw_adj; auto). rewrite !map_map. apply map_ext_in.
    intros [t m] Hin. unfold item, tri. cbn [fst snd itime imean icov ivol].
    destruct (emitted_locs P f b1 bv b2 bc t m (proj1 Hf) Hin) as ((rv & Hv) & Hrm & Ham & _).
    pose proof (cov_tot_sq P f b1 bv b2 bc t m Hf Hin) as Hsq.
    assert (Hcm : findex m = fcols (adj_tot b1 bv b2 P f) /\ fcols m = fcols (adj_tot b1 bv b2 P f)).
    { apply in_map_iff in Hin. destruct Hin as (x & E & _). inversion E; auto. }
    rewrite Ev, (loc0_tr _ _ _ _ Hv).
    f_equal.
    - destruct (use_mean P) eqn:Em.
      + destruct (Hrm eq_refl) as (rm & Hrm'). destruct (Ham eq_refl) as (ra & Ham').
        unfold retmean_tot at 1. rewrite Ep, Em.
        rewrite (center_tr2 phi psi chi HE) by (apply fw_prep; auto).
        unfold adjmean_tot at 1. rewrite Ea0, Em.
        rewrite (center_tr2 ident ident ident2 equivariant_ident) by (apply fw_adj0; auto).
        unfold retmean_tot, adjmean_tot in Hrm', Ham'. rewrite Em in Hrm', Ham'.
        rewrite (loc0_tr _ _ _ _ Hrm'), (loc0_trid _ _ _ Ham').
        unfold retmean_tot, adjmean_tot. rewrite Em. unfold scale_mean.
        assert (L1 : length (loc0 (volaf_tot b1 bv P f) t) = n)
          by (eapply loc0_len; [apply fw_volaf; eauto|]; eauto).
        assert (L2 : length (loc0 (snd (center_tot b1 true (prep P f))) t) = n).
        { eapply loc0_len; eauto. apply fw_meanf, fw_prep; auto. }
        assert (L3 : length (loc0 (snd (center_tot b2 true (adj0_tot b1 bv P f))) t) = n).
        { eapply loc0_len; eauto. apply fw_meanf, fw_adj0; auto. }
        unfold tr. rewrite !map2_self. apply map_ext_in. intros q Hq. pose proof (p_lt _ Hq).
        unfold ident. rewrite (eq_add _ _ _ HE). f_equal.
        rewrite (map2_nth _ _ _ q n0 n0) by (rewrite ?map2_length; lia). f_equal.
        symmetry; apply map2_nth; lia.
      + unfold tr.
        assert (Hfc : fcols (ret_tot b1 P (trf phi f)) = trc (fcols (ret_tot b1 P f))) by (rewrite Er; reflexivity).
        rewrite Hfc. unfold trc. rewrite map_map. apply map_ext_in. intros q Hq.
        pose proof (p_lt _ Hq). rewrite (nth_map_lt _ _ _ EmptyString).
        * symmetry; apply HE.
        * unfold ret_tot. rewrite fcols_center. unfold prep. destruct (nan_to_num P); simpl; lia.
    - destruct Hcm as [E1 E2].
      assert (L1 : length (loc0 (volaf_tot b1 bv P f) t) = n)
          by (eapply loc0_len; [apply fw_volaf; eauto|]; eauto).
      pose proof (scale_cov_tr phi psi chi HE _ m Hsq L1) as HS. rewrite E1, E2 in HS.
      unfold scale_cov in *. cbn [fvals findex fcols] in *. rewrite E1, E2. f_equal. exact HS.
  Qed.

  Theorem iterated_ewma_tr phi psi chi P f :
    equivariant phi psi chi -> good f -> rows_len n (fvals f) -> length (fcols f) = n ->
    iterated_ewma P (trf phi f) =
    match iterated_ewma P f with
    | Ok outs => Ok (map (tri phi chi) outs)
    | Raise e => Raise e
    end.
  Proof.
    intros HE Hg Hr Hc. assert (Hf : fw n f) by (split; auto).
    assert (Hgt : good (trf phi f)).
    { destruct Hg as [H1 H2]. split; simpl; [rewrite map_length|]; auto. }
    rewrite !iterated_ewma_full by auto. rewrite (prep_tr phi psi chi HE P f Hf).
    change (fvals (trf phi (prep P f))) with (map (tr phi) (fvals (prep P f))). rewrite isnil_map.
    destruct (opt_beta (use_mean P) _) as [b1|e1]; cbn [bind]; auto.
    destruct (_ && _); auto.
    destruct (beta_of (vola_halflife P) None) as [bv|e2]; cbn [bind]; auto.
    destruct (trf_stages phi psi chi P f b1 bv n0 HE Hf) as (Er & _).
    rewrite Er. change (fvals (trf phi ?x)) with (map (tr phi) (fvals x)). rewrite isnil_map.
    destruct (isnil (fvals (ret_tot b1 P f))); auto.
    destruct (opt_beta (use_mean P) (or_else (mu_halflife2 P) _)) as [b2|e3]; cbn [bind]; auto.
    destruct (trf_stages phi psi chi P f b1 bv b2 HE Hf) as (_ & _ & Ea0 & Ea).
    rewrite Ea0, Ea. change (fvals (trf ident ?x)) with (map (tr ident) (fvals x)). rewrite !isnil_map.
    destruct (_ && _); auto.
    destruct (beta_of (cov_halflife P) None) as [bc|e4]; cbn [bind]; auto.
    destruct (isnil _); auto. f_equal. apply it_tot_tr with (psi := psi); auto.
  Qed.

End Equiv.
