(** * When is the covariance of an IEWMA item positive definite? *)
From Coq Require Import String Reals Lra Psatz List Bool ZArith Arith Lia Sorted.
From Verif Require Import Num Py Ewma EwmaPrefix Spec SpecEwma EwmaReal EwmaClosed EwmaAny VecProps SpecRank RankFacts.
Import ListNotations.
Local Open Scope R_scope.

Lemma rsum_sq n (u : nat -> R) : rsum n (fun p => rsum n (fun q => u p * u q)) = rsum n u ^ 2.
Proof.
  rewrite (rsum_ext n _ (fun p => rsum n u * u p)).
  - rewrite rsum_scal. ring.
  - intros p _. rewrite rsum_scal. ring.
Qed.
Lemma quad_form n b (u : nat -> R) (a : nat -> nat -> R) r :
  rsum n (fun p => rsum n (fun q => u p * u q * ewavg b (fun s => a p s * a q s) r)) =
  ewavg b (fun s => rsum n (fun p => u p * a p s) ^ 2) r.
Proof.
  rewrite (rsum_lin n n u b (fun p q s => a p s * a q s)). apply ewavg_ext. intros s _.
  rewrite <- rsum_sq. apply rsum_ext; intros p _. apply rsum_ext; intros q _. ring.
Qed.

Section Item.
  Context (n r : nat) (b : R) (v : nat -> R) (a : nat -> nat -> R) (o : IEWMA (N := XR)).
  Hypothesis Hb : 0 < b < 1.
  Let c p q := ewavg b (fun s => a p s * a q s) r.
  Hypothesis Hv : forall p, (p < n)%nat -> 0 <= v p.
  Hypothesis Hfin : forall p q, (p < n)%nat -> (q < n)%nat ->
    (exists s, (s <= r)%nat /\ a p s <> 0) -> (exists s, (s <= r)%nat /\ a q s <> 0) ->
    0 < c p p /\ 0 < c q q /\ cov_at o p q = Fin (v p * v q * (c p q / sqrt (c p p * c q q))).
  Hypothesis Hnan : forall p q, (p < n)%nat -> (q < n)%nat ->
    (forall s, (s <= r)%nat -> a p s = 0) \/ (forall s, (s <= r)%nat -> a q s = 0) -> cov_at o p q = NaN.

  Lemma moved_or p : (exists s, (s <= r)%nat /\ a p s <> 0) \/ (forall s, (s <= r)%nat -> a p s = 0).
  Proof.
    assert (forall k, (exists s, (s < k)%nat /\ a p s <> 0) \/ (forall s, (s < k)%nat -> a p s = 0)).
    { induction k; [right; lia|]. destruct IHk as [[s [H1 H2]]|H]; [left; exists s; split; [lia|auto]|].
      destruct (Req_dec (a p k) 0); [right|left; exists k; split; auto].
      intros s Hs. destruct (Nat.eq_dec s k); [subst; auto|apply H; lia]. }
    destruct (H (S r)) as [[s [H1 H2]]|H1]; [left; exists s; split; [lia|auto]|right; intros; apply H1; lia].
  Qed.
  (** Every asset has moved: the form in terms of the standardised portfolio. *)
  Lemma form_eq (z : nat -> R) : (forall p, (p < n)%nat -> exists s, (s <= r)%nat /\ a p s <> 0) ->
    rsum n (fun p => rsum n (fun q => z p * z q * xval (cov_at o p q))) =
    ewavg b (fun s => rsum n (fun p => z p * v p / sqrt (c p p) * a p s) ^ 2) r.
  Proof.
    intros Hm. rewrite <- quad_form. apply rsum_ext; intros p Hp. apply rsum_ext; intros q Hq.
    destruct (Hfin p q Hp Hq (Hm p Hp) (Hm q Hq)) as (Cp & Cq & ->). cbn [xval]. rewrite sqrt_mult by lra.
    pose proof (sqrt_lt_R0 _ Cp). pose proof (sqrt_lt_R0 _ Cq). unfold c at 1. field. split; lra.
  Qed.
  Lemma definite_iff : definite_item n o <-> (forall p, (p < n)%nat -> 0 < v p) /\ rows_span n r a.
  Proof.
    split.
    - intros [Hf Hq].
      assert (Hm : forall p, (p < n)%nat -> exists s, (s <= r)%nat /\ a p s <> 0).
      { intros p Hp. destruct (moved_or p) as [H|H]; auto. destruct (Hf p p Hp Hp) as [x Hx]. rewrite Hnan in Hx by auto. discriminate. }
      assert (Hv0 : forall p, (p < n)%nat -> 0 < v p).
      { intros p Hp. destruct (Rle_lt_or_eq_dec _ _ (Hv p Hp)) as [|E]; auto. exfalso.
        assert (Hz : exists q, (q < n)%nat /\ (if Nat.eqb q p then 1 else 0) <> 0) by (exists p; rewrite Nat.eqb_refl; split; auto; lra).
        specialize (Hq (fun q => if Nat.eqb q p then 1 else 0) Hz). rewrite form_eq in Hq by auto.
        rewrite (ewavg_ext _ _ (fun _ => 0)) in Hq.
        - assert (E0 : ewavg b (fun _ => 0) r = 0) by (apply ewavg_zero_iff; auto; intros; lra). rewrite E0 in Hq. lra.
        - intros s _. rewrite rsum_zero; [ring|]. intros q Hq'. destruct (Nat.eqb_spec q p) as [->|]; [rewrite <- E|]; unfold Rdiv; ring. }
      split; auto. intros w Hw p Hp. destruct (Req_dec (w p) 0) as [|Hne]; auto. exfalso.
      assert (Hc : forall q, (q < n)%nat -> 0 < sqrt (c q q)) by (intros q Hq'; apply sqrt_lt_R0, (Hfin q q); auto).
      assert (Hz : exists q, (q < n)%nat /\ w q * sqrt (c q q) / v q <> 0).
      { exists p. split; auto. pose proof (Hc p Hp). pose proof (Hv0 p Hp). intros E.
        apply Hne. replace (w p) with (w p * sqrt (c p p) / v p * (v p / sqrt (c p p))) by (field; split; lra). rewrite E. ring. }
      specialize (Hq (fun q => w q * sqrt (c q q) / v q) Hz). rewrite form_eq in Hq by auto.
      rewrite (ewavg_ext _ _ (fun _ => 0)) in Hq.
      + assert (E0 : ewavg b (fun _ => 0) r = 0) by (apply ewavg_zero_iff; auto; intros; lra). rewrite E0 in Hq. lra.
      + intros s Hs. rewrite (rsum_ext n _ (fun q => w q * a q s)); [rewrite Hw by auto; ring|].
        intros q Hq'. pose proof (Hc q Hq'). pose proof (Hv0 q Hq'). field. split; lra.
    - intros [Hv0 Hsp].
      assert (Hm : forall p, (p < n)%nat -> exists s, (s <= r)%nat /\ a p s <> 0).
      { intros p Hp. destruct (moved_or p) as [H|H]; auto. exfalso.
        assert ((fun q => if Nat.eqb q p then 1 else 0) p = 0).
        { apply (Hsp (fun q => if Nat.eqb q p then 1 else 0)); auto. intros s Hs. apply rsum_zero. intros q Hq.
          destruct (Nat.eqb_spec q p) as [->|]; [rewrite H by auto|]; ring. }
        cbv beta in H0. rewrite Nat.eqb_refl in H0. lra. }
      split.
      + intros p q Hp Hq. destruct (Hfin p q Hp Hq (Hm p Hp) (Hm q Hq)) as (_ & _ & ->). eauto.
      + intros z (p & Hp & Hz). rewrite form_eq by auto.
        assert (Hn : 0 <= ewavg b (fun s => rsum n (fun p => z p * v p / sqrt (c p p) * a p s) ^ 2) r) by (apply ewavg_nonneg; auto; intros; apply pow2_ge_0).
        destruct (Rle_lt_or_eq_dec _ _ Hn) as [|E]; auto. exfalso. symmetry in E.
        rewrite (ewavg_zero_iff b Hb) in E by (intros; apply pow2_ge_0).
        assert (E2 : z p * v p / sqrt (c p p) = 0).
        { apply (Hsp (fun p => z p * v p / sqrt (c p p))); auto. intros s Hs. specialize (E s Hs).
          destruct (Req_dec (rsum n (fun p0 => z p0 * v p0 / sqrt (c p0 p0) * a p0 s)) 0) as [|Hne]; auto.
          apply (pow_nonzero _ 2) in Hne. contradiction. }
        pose proof (Hv0 p Hp). destruct (Hfin p p Hp Hp (Hm p Hp) (Hm p Hp)) as (Cp & _). pose proof (sqrt_lt_R0 _ Cp).
        apply Hz. replace (z p) with (z p * v p / sqrt (c p p) * (sqrt (c p p) / v p)) by (field; split; lra). rewrite E2. ring.
  Qed.
End Item.

Lemma rows_span_short n m a : (m < n)%nat -> (m = 0%nat \/ ~ rows_span n (m - 1) a).
Proof.
  intros H. destruct m; [left; auto|right]. intros Hs. destruct (short_rows (n := n) (m := S m) a H) as (w & (p & Hp & Hne) & Hw).
  apply Hne. apply (Hs w); auto. intros s Hs'. apply Hw. lia.
Qed.
(** The first row of EWMA-centred data is zero. *)
Lemma centred_zero h x p : 0 < decay h < 1 -> centred true h x p 0 = 0.
Proof. intros H. unfold centred. rewrite ewavg_0 by auto. ring. Qed.
Lemma rows_span_centred n r h z : 0 < decay h < 1 -> (r < n)%nat -> ~ rows_span n r (centred true h z).
Proof.
  intros Hh Hr Hs. destruct (short_rows (n := n) (m := r) (fun p s => centred true h z p (S s)) Hr) as (w & (p & Hp & Hne) & Hw).
  apply Hne. apply (Hs w); auto. intros [|s] Hs'.
  - apply rsum_zero. intros. rewrite centred_zero by auto. ring.
  - apply (Hw s). lia.
Qed.

Lemma nth_error_skipn_ {A} m (l : list A) i : nth_error (skipn m l) i = nth_error l (m + i).
Proof. revert l. induction m; intros l; [reflexivity|]. destruct l; [destruct i; reflexivity|]. apply IHm. Qed.
(** The items of a run. *)
Theorem run_definite : forall P f x hv hc h1 h2 rc,
  settings P hv hc h1 h2 rc -> valid_returns f -> returns_are (nan_to_num P) f x ->
  let n := length (fcols f) in
  let y := centred (use_mean P) h1 x in
  let v := fun j s => sqrt (winsor_var hv (min_periods_vola P) rc (y j) s) in
  exists rows : list nat,
    StronglySorted lt rows /\
    (forall k, In k rows <-> (first_pos (min_periods_vola P) <= k < length (findex f))%nat /\
       exists j, (j < n)%nat /\ (v j k <> 0 \/ y j k <> 0)) /\
    forall outs, iterated_ewma P f = Ok outs -> forall i o, nth_error outs i = Some o ->
      let r := (first_pos (min_periods_cov P) + i)%nat in
      let k := nth r rows 0%nat in
      let z := fun j s => standardised rc (y j (nth s rows 0%nat)) (v j (nth s rows 0%nat)) in
      let a := centred (use_mean P) h2 z in
      itime o = nth k (findex f) 0%Z /\
      (definite_item n o <-> (forall p, (p < n)%nat -> 0 < v p k) /\ rows_span n r a).
Proof.
  intros P f x hv hc h1 h2 rc HP Hf Hx n y v.
  destruct (run_total P f x hv hc h1 h2 rc HP Hf Hx) as (rows & S1 & S2 & S3 & S4). exists rows. split; [exact S1|]. split; [exact S2|].
  intros outs E i o Ho r k z a. assert (Hr : rows <> []) by (intros Hr; rewrite (S3 Hr) in E; discriminate).
  destruct (S4 Hr) as (outs' & E' & Ht & Hi). rewrite E in E'. injection E' as <-. specialize (Hi i o Ho). cbv zeta in Hi.
  split.
  - pose proof (map_nth_error itime _ _ Ho) as Ht'. rewrite Ht in Ht'. 
    assert (Hlen : (i < length (skipn (first_pos (min_periods_cov P)) rows))%nat).
    { apply nth_error_Some. destruct (nth_error (skipn (first_pos (min_periods_cov P)) rows) i) eqn:Ee; [discriminate|].
      rewrite nth_error_map, Ee in Ht'. discriminate. }
    rewrite nth_error_map in Ht'. destruct (nth_error (skipn (first_pos (min_periods_cov P)) rows) i) as [k'|] eqn:Ee; [|discriminate].
    injection Ht' as <-. f_equal. unfold k, r. symmetry. rewrite nth_error_skipn_ in Ee. exact (nth_error_nth _ _ _ Ee).
  - destruct HP as (_ & [_ Hc] & _). assert (Hb : 0 < decay hc < 1) by (apply decay_bounds; exact Hc).
    apply (definite_iff n r (decay hc) (fun p => v p k) a o Hb).
    + intros p _. apply sqrt_pos.
    + intros p q Hp Hq. destruct (Hi p Hp) as (_ & _ & Hcov). destruct (Hcov q Hq) as [H1 _]. exact H1.
    + intros p q Hp Hq. destruct (Hi p Hp) as (_ & _ & Hcov). destruct (Hcov q Hq) as [_ H1]. exact H1.
Qed.
Theorem run_too_few : forall P f x hv hc h1 h2 rc,
  settings P hv hc h1 h2 rc -> valid_returns f -> returns_are (nan_to_num P) f x ->
  forall outs i o, iterated_ewma P f = Ok outs -> nth_error outs i = Some o ->
  (first_pos (min_periods_cov P) + i + (if use_mean P then 0 else 1) < length (fcols f))%nat ->
  ~ definite_item (length (fcols f)) o.
Proof.
  intros P f x hv hc h1 h2 rc HP Hf Hx outs i o E Ho Hlt Hd.
  destruct (run_definite P f x hv hc h1 h2 rc HP Hf Hx) as (rows & _ & _ & H). destruct (H outs E i o Ho) as [_ Hiff]. apply Hiff in Hd. destruct Hd as [_ Hs].
  destruct (use_mean P).
  - revert Hs. apply rows_span_centred; [|lia]. destruct HP as ([_ Hv] & [_ Hc] & _ & H2 & _). apply decay_bounds.
    destruct H2 as [[_ ->]|[_ H2]]; lra.
  - destruct (rows_span_short _ _ (centred false h2 (fun j s => standardised rc (centred false h1 x j (nth s rows 0%nat))
      (sqrt (winsor_var hv (min_periods_vola P) rc (centred false h1 x j) (nth s rows 0%nat))))) Hlt) as [H0|H0]; [lia|].
    apply H0. replace (first_pos (min_periods_cov P) + i + 1 - 1)%nat with (first_pos (min_periods_cov P) + i)%nat by lia. exact Hs.
Qed.
