(** * The spectral theorem for real symmetric matrices (so that the contract of eigh can be met). *)
From Coq Require Import Reals Lra List Arith Lia ClassicalChoice Classical.
From Coquelicot Require Import Compactness.
From Verif Require Import Spec EwmaReal Simplex.
Import ListNotations.
Local Open Scope R_scope.

(** A continuous function attains its maximum on a closed bounded set. *)
Theorem compact_max K (P : (nat -> R) -> Prop) f a b : (exists w, P w) ->
  (forall w, P w -> forall k, (k < K)%nat -> a <= w k <= b) ->
  (forall w, ~ P w -> exists d, 0 < d /\ forall w', near K d w w' -> ~ P w') ->
  (forall w, P w -> cont K f w) ->
  exists w, P w /\ forall w', P w' -> f w' <= f w.
Proof.
  intros [w0 H0] Hbox Hopen Hc. apply NNPP. intros Hno.
  assert (Hbet : forall w, P w -> exists y, P y /\ f w < f y).
  { intros w Hw. apply NNPP. intros Hn. apply Hno. exists w. split; auto. intros w' Hw'.
    apply Rnot_lt_le. intros Hlt. apply Hn. eauto. }
  (* around every point: a radius and a better point *)
  assert (Hd : forall t : Tn K R, exists dy : posreal * (nat -> R), P (snd dy) /\
     forall w', near K (fst dy) (toF K t) w' -> P w' -> f w' < f (snd dy)).
  { intros t. destruct (classic (P (toF K t))) as [Ht|Ht].
    - destruct (Hbet _ Ht) as (y & Hy & Hlt). destruct (Hc _ Ht (f y - f (toF K t))) as (d & Hd & Hn); [lra|].
      exists (mkposreal d Hd, y). split; auto. simpl. intros w' Hw' _. specialize (Hn w' Hw').
      apply Rabs_def2 in Hn. lra.
    - destruct (Hopen _ Ht) as (d & Hd & Hn). exists (mkposreal d Hd, w0). split; auto. simpl.
      intros w' Hw' Hs. destruct (Hn w' Hw' Hs). }
  apply choice in Hd. destruct Hd as (D & HD).
  apply (compactness_list K (constT K a) (constT K b) (fun t => fst (D t))). intros (l & Hl).
  (* the best of the finitely many better points *)
  assert (Hbest : forall l : list (Tn K R), exists y, P y /\ forall t, In t l -> f (snd (D t)) <= f y).
  { clear l Hl. induction l as [|c l (y & Hy & IH)]; [exists w0; split; auto; intros t []|].
    destruct (Rle_lt_dec (f (snd (D c))) (f y)) as [H|H].
    - exists y. split; auto. intros t [<-|Ht]; auto.
    - exists (snd (D c)). split; [apply HD|]. intros t [<-|Ht]; [lra|]. specialize (IH t Ht). lra. }
  destruct (Hbest l) as (y & Hy & Hall).
  assert (Hb : forall k, (k < K)%nat -> a <= toF K (ofF K y) k <= b).
  { intros k Hk. rewrite toF_ofF by auto. auto. }
  destruct (Hl (ofF K y) (bounded_const _ _ _ _ Hb)) as (t & Ht & _ & Hcl).
  apply close_near in Hcl. destruct (HD t) as [_ HDt].
  assert (Hny : near K (fst (D t)) (toF K t) y).
  { intros k Hk. specialize (Hcl k Hk). rewrite toF_ofF in Hcl by auto. exact Hcl. }
  specialize (HDt y Hny Hy). specialize (Hall t Ht). lra.
Qed.


Lemma closed_eq K g c w : cont K g w -> g w <> c -> exists d, 0 < d /\ forall w', near K d w w' -> g w' <> c.
Proof.
  intros Hg Hne. destruct (Hg (Rabs (g w - c))) as (d & Hd & H); [apply Rabs_pos_lt; lra|].
  exists d. split; auto. intros w' Hw E. specialize (H w' Hw). rewrite E in H.
  rewrite <- Rabs_Ropp in H. replace (- (c - g w)) with (g w - c) in H by ring. lra.
Qed.

Lemma cont_ext K f g w : (forall v, f v = g v) -> cont K f w -> cont K g w.
Proof. intros H Hf e He. destruct (Hf e He) as (d & Hd & Hn). exists d. split; auto. intros w' Hw. rewrite <- !H. auto. Qed.
Lemma cont_mult K f g w : cont K f w -> cont K g w -> cont K (fun v => f v * g v) w.
Proof.
  intros Hf Hg.
  apply (cont_ext K (fun v => / 2 * ((f v + g v) * (f v + g v) + -1 * (f v * f v + g v * g v)))); [intros v; field|].
  apply cont_scal. apply cont_plus; [apply cont_sq, cont_plus; auto|]. apply cont_scal, cont_plus; apply cont_sq; auto.
Qed.
