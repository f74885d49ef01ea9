(** * A continuous function attains its maximum on the simplex. *)
From Coq Require Import Reals Lra List Arith Lia ClassicalChoice Classical.
From Coquelicot Require Import Compactness.
From Verif Require Import Spec EwmaReal.
Import ListNotations.
Local Open Scope R_scope.

Section Simplex.
  Context (K : nat).
  Definition simplex (w : nat -> R) : Prop := (forall k, (k < K)%nat -> 0 <= w k) /\ rsum K w = 1.
  Definition near (d : R) (w w' : nat -> R) : Prop := forall k, (k < K)%nat -> Rabs (w' k - w k) < d.
  Definition cont (f : (nat -> R) -> R) (w : nat -> R) : Prop :=
    forall e, 0 < e -> exists d, 0 < d /\ forall w', near d w w' -> Rabs (f w' - f w) < e.
End Simplex.

Fixpoint toF n : Tn n R -> nat -> R :=
  match n with
  | O => fun _ _ => 0
  | S n => fun x k => match k with O => fst x | S k => toF n (snd x) k end
  end.
Fixpoint ofF n (w : nat -> R) : Tn n R :=
  match n with O => tt | S n => (w O, ofF n (fun k => w (S k))) end.
Fixpoint constT n (r : R) : Tn n R := match n with O => tt | S n => (r, constT n r) end.

Lemma toF_ofF n : forall w k, (k < n)%nat -> toF n (ofF n w) k = w k.
Proof. induction n as [|n IH]; intros w [|k] H; simpl; try lia; auto. rewrite IH by lia. auto. Qed.
Lemma bounded_const n a b : forall x, (forall k, (k < n)%nat -> a <= toF n x k <= b) -> bounded_n n (constT n a) (constT n b) x.
Proof.
  induction n as [|n IH]; intros x H; [exact I|]. destruct x as [x1 x2]. simpl. split.
  - apply (H 0%nat). lia.
  - apply IH. intros k Hk. apply (H (S k)). lia.
Qed.
Lemma close_near n d : forall x t, close_n n d x t -> near n d (toF n t) (toF n x).
Proof.
  induction n as [|n IH]; intros x t H k Hk; [lia|]. destruct x as [x1 x2], t as [t1 t2]. simpl in H. destruct H as [H1 H2].
  destruct k as [|k]; simpl; auto. apply IH; auto. lia.
Qed.

Lemma rsum_diff K u v d : (forall k, (k < K)%nat -> Rabs (u k - v k) < d) -> Rabs (rsum K u - rsum K v) <= INR K * d.
Proof.
  induction K as [|K IH]; intros H.
  - simpl. rewrite Rminus_diag_eq, Rabs_R0 by auto. lra.
  - cbn [rsum]. rewrite S_INR. assert (H1 := IH (fun k Hk => H k (Nat.lt_lt_succ_r _ _ Hk))). assert (H2 := H K (Nat.lt_succ_diag_r K)).
    replace (rsum K u + u K - (rsum K v + v K)) with ((rsum K u - rsum K v) + (u K - v K)) by ring.
    eapply Rle_trans; [apply Rabs_triang|]. lra.
Qed.

Lemma rsum_ge_term K w k : (forall j, (j < K)%nat -> 0 <= w j) -> (k < K)%nat -> w k <= rsum K w.
Proof.
  induction K as [|K IH]; intros H Hk; [lia|]. cbn [rsum].
  assert (0 <= rsum K w) by (apply rsum_nonneg; intros; apply H; lia).
  destruct (Nat.eq_dec k K) as [->|Hn]; [lra|].
  assert (w k <= rsum K w) by (apply IH; [intros; apply H; lia|lia]). specialize (H K (Nat.lt_succ_diag_r K)). lra.
Qed.

(** The complement of the simplex is open. *)
Lemma not_simplex_open K w : ~ simplex K w -> exists d, 0 < d /\ forall w', near K d w w' -> ~ simplex K w'.
Proof.
  intros H. apply not_and_or in H. destruct H as [H|H].
  - apply not_all_ex_not in H. destruct H as (k & H). apply imply_to_and in H. destruct H as [Hk H].
    exists (- w k). split; [lra|]. intros w' Hn [H0 _]. specialize (Hn k Hk). specialize (H0 k Hk).
    apply Rabs_def2 in Hn. lra.
  - set (g := Rabs (rsum K w - 1)). assert (Hg : 0 < g) by (apply Rabs_pos_lt; lra).
    exists (g / (INR K + 1)). pose proof (pos_INR K) as HK. split; [apply Rdiv_lt_0_compat; lra|].
    intros w' Hn [_ H1]. pose proof (rsum_diff K w' w _ Hn) as Hd. rewrite H1 in Hd.
    rewrite <- Rabs_Ropp in Hd. replace (- (1 - rsum K w)) with (rsum K w - 1) in Hd by ring. fold g in Hd.
    assert (INR K * (g / (INR K + 1)) < g); [|lra].
    replace g with ((INR K + 1) * (g / (INR K + 1))) at 2 by (field; lra).
    apply Rmult_lt_compat_r; [apply Rdiv_lt_0_compat; lra|lra].
Qed.

Theorem simplex_max K f : (exists w, simplex K w) -> (forall w, simplex K w -> cont K f w) ->
  exists w, simplex K w /\ forall w', simplex K w' -> f w' <= f w.
Proof.
  intros [w0 H0] Hc. apply NNPP. intros Hno.
  assert (Hbet : forall w, simplex K w -> exists y, simplex K y /\ f w < f y).
  { intros w Hw. apply NNPP. intros Hn. apply Hno. exists w. split; auto. intros w' Hw'.
    apply Rnot_lt_le. intros Hlt. apply Hn. eauto. }
  (* around every point: a radius and a better point *)
  assert (Hd : forall t : Tn K R, exists dy : posreal * (nat -> R), simplex K (snd dy) /\
     forall w', near K (fst dy) (toF K t) w' -> simplex K w' -> f w' < f (snd dy)).
  { intros t. destruct (classic (simplex K (toF K t))) as [Ht|Ht].
    - destruct (Hbet _ Ht) as (y & Hy & Hlt). destruct (Hc _ Ht (f y - f (toF K t))) as (d & Hd & Hn); [lra|].
      exists (mkposreal d Hd, y). split; auto. simpl. intros w' Hw' _. specialize (Hn w' Hw').
      apply Rabs_def2 in Hn. lra.
    - destruct (not_simplex_open K _ Ht) as (d & Hd & Hn). exists (mkposreal d Hd, w0). split; auto. simpl.
      intros w' Hw' Hs. destruct (Hn w' Hw' Hs). }
  apply choice in Hd. destruct Hd as (D & HD).
  apply (compactness_list K (constT K 0) (constT K 1) (fun t => fst (D t))). intros (l & Hl).
  (* the best of the finitely many better points *)
  assert (Hbest : forall l : list (Tn K R), exists y, simplex K y /\ forall t, In t l -> f (snd (D t)) <= f y).
  { clear l Hl. induction l as [|a l (y & Hy & IH)]; [exists w0; split; auto; intros t []|].
    destruct (Rle_lt_dec (f (snd (D a))) (f y)) as [H|H].
    - exists y. split; auto. intros t [<-|Ht]; auto.
    - exists (snd (D a)). split; [apply HD|]. intros t [<-|Ht]; [lra|]. specialize (IH t Ht). lra. }
  destruct (Hbest l) as (y & Hy & Hall).
  assert (Hb : forall k, (k < K)%nat -> 0 <= toF K (ofF K y) k <= 1).
  { intros k Hk. rewrite toF_ofF by auto. destruct Hy as [H1 H2]. split; auto. rewrite <- H2. apply rsum_ge_term; auto. }
  destruct (Hl (ofF K y) (bounded_const _ _ _ _ Hb)) as (t & Ht & _ & Hcl).
  apply close_near in Hcl. destruct (HD t) as [_ HDt].
  assert (Hny : near K (fst (D t)) (toF K t) y).
  { intros k Hk. specialize (Hcl k Hk). rewrite toF_ofF in Hcl by auto. exact Hcl. }
  specialize (HDt y Hny Hy). specialize (Hall t Ht). lra.
Qed.

(** ** Continuity of sums, linear forms, squares and logarithms. *)
Section Cont.
  Context (K : nat) (w : nat -> R).
  Lemma cont_const c : cont K (fun _ => c) w.
  Proof. intros e He. exists 1. split; [lra|]. intros. rewrite Rminus_diag_eq, Rabs_R0; auto. Qed.
  Lemma cont_coord k : (k < K)%nat -> cont K (fun v => v k) w.
  Proof. intros Hk e He. exists e. split; auto. Qed.
  Lemma cont_plus f g : cont K f w -> cont K g w -> cont K (fun v => f v + g v) w.
  Proof.
    intros Hf Hg e He. destruct (Hf (e / 2)) as (d1 & D1 & H1); [lra|]. destruct (Hg (e / 2)) as (d2 & D2 & H2); [lra|].
    exists (Rmin d1 d2). split; [apply Rmin_glb_lt; auto|]. intros w' Hw.
    assert (N1 : near K d1 w w') by (intros k Hk; eapply Rlt_le_trans; [apply Hw; auto|apply Rmin_l]).
    assert (N2 : near K d2 w w') by (intros k Hk; eapply Rlt_le_trans; [apply Hw; auto|apply Rmin_r]).
    specialize (H1 w' N1). specialize (H2 w' N2).
    replace (f w' + g w' - (f w + g w)) with ((f w' - f w) + (g w' - g w)) by ring.
    eapply Rle_lt_trans; [apply Rabs_triang|]. lra.
  Qed.
  Lemma cont_comp f (h : R -> R) : cont K f w -> continuity_pt h (f w) -> cont K (fun v => h (f v)) w.
  Proof.
    intros Hf Hh e He. destruct (Hh e He) as (a & Ha & H1). destruct (Hf a Ha) as (d & Hd & H2).
    exists d. split; auto. intros w' Hw. destruct (Req_dec (f w') (f w)) as [E|E].
    - rewrite E, Rminus_diag_eq, Rabs_R0; auto.
    - specialize (H1 (f w')). simpl in H1. unfold R_dist in H1. apply H1. split; [split; [exact I|auto]|]. apply H2; auto.
  Qed.
  Lemma cont_scal c f : cont K f w -> cont K (fun v => c * f v) w.
  Proof.
    intros Hf. apply (cont_comp f (fun x => c * x)); auto. apply continuity_pt_mult; [apply continuity_pt_const; intros x y; auto|].
    apply derivable_continuous_pt, derivable_pt_id.
  Qed.
  Lemma cont_ln f : cont K f w -> 0 < f w -> cont K (fun v => ln (f v)) w.
  Proof. intros Hf Hp. apply cont_comp; auto. apply derivable_continuous_pt. eexists. apply derivable_pt_lim_ln; auto. Qed.
  Lemma cont_sq f : cont K f w -> cont K (fun v => f v * f v) w.
  Proof.
    intros Hf. apply (cont_comp f (fun x => x * x)); auto.
    apply continuity_pt_mult; apply derivable_continuous_pt, derivable_pt_id.
  Qed.
  Lemma cont_rsum m (F : nat -> (nat -> R) -> R) : (forall j, (j < m)%nat -> cont K (F j) w) ->
    cont K (fun v => rsum m (fun j => F j v)) w.
  Proof.
    induction m as [|m IH]; intros H; simpl; [apply cont_const|]. apply cont_plus; auto.
  Qed.
  Lemma cont_lin c : cont K (fun v => rsum K (fun k => c k * v k)) w.
  Proof. apply cont_rsum. intros j Hj. apply cont_scal, cont_coord; auto. Qed.
End Cont.
