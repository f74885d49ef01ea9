(** * Generic list lemmas. *)
From Coq Require Import List Bool ZArith Arith Lia.
From Verif Require Import Num Py.
Import ListNotations.

Section Map2.
  Context {A B C : Type}.
  Lemma map2_length (f : A -> B -> C) l1 l2 : length (map2 f l1 l2) = Nat.min (length l1) (length l2).
  Proof. revert l2; induction l1; destruct l2; simpl; auto. Qed.

  Lemma map2_nth (f : A -> B -> C) l1 l2 k a b c :
    k < length l1 -> k < length l2 -> nth k (map2 f l1 l2) c = f (nth k l1 a) (nth k l2 b).
  Proof.
    revert l2 k; induction l1 as [|x l1 IH]; intros [|y l2] [|k]; simpl; intros; try lia; auto.
    apply IH; lia.
  Qed.

  Lemma map2_app (f : A -> B -> C) l1 l1' l2 l2' :
    length l1 = length l2 -> map2 f (l1 ++ l1') (l2 ++ l2') = map2 f l1 l2 ++ map2 f l1' l2'.
  Proof. revert l2; induction l1; intros [|y l2]; simpl; intros; try lia; auto. f_equal; auto. Qed.

  Lemma map2_ext_in (f g : A -> B -> C) l1 l2 :
    (forall x y, In (x, y) (combine l1 l2) -> f x y = g x y) -> map2 f l1 l2 = map2 g l1 l2.
  Proof.
    revert l2; induction l1 as [|x l1 IH]; intros [|y l2] H; simpl in *; auto.
    f_equal; auto.
  Qed.

  Lemma map2_combine (f : A -> B -> C) l1 l2 :
    map2 f l1 l2 = map (fun p => f (fst p) (snd p)) (combine l1 l2).
  Proof. revert l2; induction l1; intros [|y l2]; simpl; auto. f_equal; auto. Qed.
End Map2.

Lemma map2_map {A B C A' B'} (f : A -> B -> C) (g : A' -> A) (h : B' -> B) l1 l2 :
  map2 f (map g l1) (map h l2) = map2 (fun x y => f (g x) (h y)) l1 l2.
Proof. revert l2; induction l1; intros [|y l2]; simpl; auto. f_equal; auto. Qed.

Lemma map_map2 {A B C D} (g : C -> D) (f : A -> B -> C) l1 l2 :
  map g (map2 f l1 l2) = map2 (fun x y => g (f x y)) l1 l2.
Proof. revert l2; induction l1; intros [|y l2]; simpl; auto. f_equal; auto. Qed.

Lemma map2_snd {A B} (l1 : list A) (l2 : list B) :
  length l2 <= length l1 -> map2 (fun _ y => y) l1 l2 = l2.
Proof. revert l2; induction l1; intros [|y l2]; simpl; intros; try lia; auto. f_equal; apply IHl1; lia. Qed.

Lemma combine_app {A B} (l1 l1' : list A) (l2 l2' : list B) :
  length l1 = length l2 -> combine (l1 ++ l1') (l2 ++ l2') = combine l1 l2 ++ combine l1' l2'.
Proof. revert l2; induction l1; intros [|y l2]; simpl; intros; try lia; auto. f_equal; auto. Qed.

Lemma map_fst_combine {A B} (l1 : list A) (l2 : list B) :
  length l1 <= length l2 -> map fst (combine l1 l2) = l1.
Proof. revert l2; induction l1; intros [|y l2]; simpl; intros; try lia; auto. f_equal; apply IHl1; lia. Qed.

Lemma map_snd_combine {A B} (l1 : list A) (l2 : list B) :
  length l2 <= length l1 -> map snd (combine l1 l2) = l2.
Proof. revert l2; induction l1; intros [|y l2]; simpl; intros; try lia; auto. f_equal; apply IHl1; lia. Qed.

Lemma combine_map_fst_snd {A B} (l : list (A * B)) : combine (map fst l) (map snd l) = l.
Proof. induction l as [|[a b] l IH]; simpl; auto. f_equal; auto. Qed.

Lemma In_combine_fst {A B} (l1 : list A) (l2 : list B) p : In p (combine l1 l2) -> In (fst p) l1.
Proof. destruct p; apply in_combine_l. Qed.

Lemma nth_seq0 n k d : k < n -> nth k (seq 0 n) d = k.
Proof. intros; rewrite seq_nth; auto. Qed.

Lemma nth_map_lt {A B} (f : A -> B) l k a b : k < length l -> nth k (map f l) b = f (nth k l a).
Proof. intros; rewrite nth_indep with (d' := f a) by (rewrite map_length; auto). apply map_nth. Qed.

Lemma list_eq_nth {A} (d : A) l1 l2 :
  length l1 = length l2 -> (forall k, k < length l1 -> nth k l1 d = nth k l2 d) -> l1 = l2.
Proof.
  revert l2; induction l1 as [|x l1 IH]; intros [|y l2]; simpl; intros HL H; try lia; auto.
  f_equal. apply (H 0); lia. apply IH; auto. intros k Hk; apply (H (S k)); lia.
Qed.

Lemma Forall_nth_lt {A} (Q : A -> Prop) l d k : Forall Q l -> k < length l -> Q (nth k l d).
Proof. intros H Hk; rewrite Forall_forall in H; apply H, nth_In; auto. Qed.

Lemma filter_all {A} (f : A -> bool) l : (forall x, In x l -> f x = true) -> filter f l = l.
Proof. induction l as [|x l IH]; simpl; auto; intros H. rewrite (H x), IH; auto. Qed.

Lemma filter_none {A} (f : A -> bool) l : (forall x, In x l -> f x = false) -> filter f l = [].
Proof. induction l as [|x l IH]; simpl; auto; intros H. rewrite (H x), IH; auto. Qed.

Lemma filter_map_comm {A B} (f : A -> B) (p : B -> bool) l :
  filter p (map f l) = map f (filter (fun x => p (f x)) l).
Proof. induction l; simpl; auto. destruct (p (f a)); simpl; rewrite IHl; auto. Qed.

Lemma firstn_map {A B} (f : A -> B) k l : firstn k (map f l) = map f (firstn k l).
Proof. revert l; induction k; intros [|x l]; simpl; auto. f_equal; auto. Qed.

Lemma forallb_map {A B} (f : A -> B) (p : B -> bool) l :
  forallb p (map f l) = forallb (fun x => p (f x)) l.
Proof. induction l; simpl; auto. rewrite IHl; auto. Qed.

Lemma forallb_ext_in {A} (p q : A -> bool) l :
  (forall x, In x l -> p x = q x) -> forallb p l = forallb q l.
Proof. induction l as [|x l IH]; simpl; auto; intros H. rewrite (H x), IH; auto. Qed.

Lemma mapM_ok {A B} (f : A -> res B) (g : A -> B) l :
  (forall x, In x l -> f x = Ok (g x)) -> mapM f l = Ok (map g l).
Proof.
  induction l as [|x l IH]; simpl; auto; intros H.
  rewrite (H x) by auto. simpl. rewrite IH by auto. reflexivity.
Qed.

(** dict_of on distinct keys is the identity. *)
Lemma dict_set_new {V} (d : list (Z * V)) k v :
  ~ In k (map fst d) -> dict_set Z.eqb d k v = d ++ [(k, v)].
Proof.
  induction d as [|[k' v'] d IH]; simpl; auto; intros H.
  destruct (Z.eqb_spec k k'); [subst; tauto|]. rewrite IH; auto.
Qed.

Lemma dict_of_nodup {V} (l : list (Z * V)) : NoDup (map fst l) -> dict_of Z.eqb l = l.
Proof.
  unfold dict_of.
  assert (H : forall d, NoDup (map fst (d ++ l)) ->
              fold_left (fun d kv => dict_set Z.eqb d (fst kv) (snd kv)) l d = d ++ l).
  { induction l as [|[k v] l IH]; simpl; intros d H; [rewrite app_nil_r; auto|].
    rewrite dict_set_new.
    - rewrite IH; rewrite <- app_assoc; auto.
    - rewrite map_app in H; simpl in H. apply NoDup_remove_2 in H.
      intro Hin; apply H, in_or_app; auto. }
  intros H0; apply (H []); auto.
Qed.

Lemma increasing_all_lt a l : increasing (a :: l) -> Forall (fun x => (a < x)%Z) l.
Proof.
  revert a; induction l as [|b l IH]; intros a H; auto.
  destruct H as [H1 H2]. constructor; auto.
  specialize (IH b H2). eapply Forall_impl; [|exact IH]. intros; simpl in *; lia.
Qed.
Lemma increasing_tail a l : increasing (a :: l) -> increasing l.
Proof. destruct l; simpl; tauto. Qed.
Lemma increasing_NoDup l : increasing l -> NoDup l.
Proof.
  induction l as [|a l IH]; intros H; constructor.
  - pose proof (increasing_all_lt _ _ H) as HF. rewrite Forall_forall in HF.
    intro Hin. specialize (HF _ Hin). lia.
  - apply IH. eapply increasing_tail; eauto.
Qed.

Lemma NoDup_map_fst_filter {B} (p : Z * B -> bool) l :
  NoDup (map fst l) -> NoDup (map fst (filter p l)).
Proof.
  induction l as [|[k v] l IH]; simpl; intros H; auto.
  inversion H; subst. destruct (p (k, v)); simpl; auto. constructor; auto.
  intro Hin; apply H2. rewrite in_map_iff in *. destruct Hin as [x [Hx Hi]].
  exists x; split; auto. apply filter_In in Hi; tauto.
Qed.

Lemma NoDup_app_l {A} (l1 l2 : list A) : NoDup (l1 ++ l2) -> NoDup l1.
Proof.
  induction l1; simpl; intros H; constructor; inversion H; subst; auto.
  intro Hi; apply H2, in_or_app; auto.
Qed.
Lemma NoDup_app_disj {A} (l1 l2 : list A) x : NoDup (l1 ++ l2) -> In x l1 -> In x l2 -> False.
Proof.
  induction l1; simpl; intros H H1 H2; [tauto|]. inversion H; subst.
  destruct H1; subst; auto. apply H4, in_or_app; auto.
Qed.

Lemma NoDup_map_on {A B} (f : A -> B) l :
  (forall a b, In a l -> In b l -> f a = f b -> a = b) -> NoDup l -> NoDup (map f l).
Proof.
  induction l as [|x l IH]; simpl; intros Hf H; [constructor|]. inversion H; subst. constructor.
  - intros Hi. apply in_map_iff in Hi. destruct Hi as (y & E & Hy).
    assert (y = x) by (apply Hf; auto). subst; auto.
  - apply IH; auto.
Qed.
