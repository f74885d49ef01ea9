(** * combination.py: the frames of the model in closed form. *)
From Coq Require Import String List Bool ZArith Arith Lia.
From Verif Require Import Num Py ListFacts Combination SpecComb.
Import ListNotations.

(** ** mapM *)
Lemma mapM_ext_in {A B} (f g : A -> res B) l : (forall x, In x l -> f x = g x) -> mapM f l = mapM g l.
Proof. induction l as [|x l IH]; simpl; auto; intros H. rewrite (H x), IH; auto. Qed.

Lemma mapM_map {A B C} (h : A -> B) (f : B -> res C) l : mapM f (map h l) = mapM (fun x => f (h x)) l.
Proof. induction l as [|x l IH]; simpl; auto. rewrite IH; auto. Qed.

Lemma mapM_inv {A B} (f : A -> res B) l r : mapM f l = Ok r -> forall x, In x l -> exists y, f x = Ok y.
Proof.
  revert r; induction l as [|a l IH]; simpl; intros r H x Hx; [tauto|].
  destruct (f a) as [b|e] eqn:E; simpl in H; [|discriminate].
  destruct (mapM f l) as [bs|e] eqn:E2; simpl in H; [|discriminate].
  destruct Hx as [->|Hx]; eauto.
Qed.

Lemma mapM_raise {A B} (f : A -> res B) l e :
  (exists x, In x l /\ f x = Raise e) -> (forall x e', In x l -> f x = Raise e' -> e' = e) ->
  mapM f l = Raise e.
Proof.
  induction l as [|a l IH]; simpl; intros (x & Hx & E) H; [tauto|].
  destruct (f a) as [b|e'] eqn:Ea; simpl.
  - destruct Hx as [->|Hx]; [congruence|]. rewrite IH; eauto.
  - rewrite (H a e'); auto.
Qed.

Lemma mapM_cases {A B} (f : A -> res B) l :
  (exists r, mapM f l = Ok r) \/ (exists x e, In x l /\ f x = Raise e /\ mapM f l = Raise e).
Proof.
  induction l as [|a l IH]; simpl; [left; eauto|].
  destruct (f a) as [b|e] eqn:E; simpl; [|right; exists a, e; auto].
  destruct IH as [(r & ->)|(x & e & H1 & H2 & ->)]; simpl; [left; eauto|right; exists x, e; auto].
Qed.

Lemma mapM_length {A B} (f : A -> res B) l r : mapM f l = Ok r -> length r = length l.
Proof.
  revert r; induction l as [|a l IH]; simpl; intros r H; [inversion H; auto|].
  destruct (f a); simpl in H; [|discriminate]. destruct (mapM f l); simpl in H; [|discriminate].
  inversion H; subst; simpl; f_equal; auto.
Qed.

Lemma mapM_app {A B} (f : A -> res B) l1 l2 :
  mapM f (l1 ++ l2) = do r1 <- mapM f l1; do r2 <- mapM f l2; Ok (r1 ++ r2).
Proof.
  induction l1 as [|a l1 IH]; simpl; [destruct (mapM f l2); auto|].
  destruct (f a); simpl; auto. rewrite IH. destruct (mapM f l1); simpl; auto.
  destruct (mapM f l2); simpl; auto.
Qed.

Lemma mapM_nth {A B} (f : A -> res B) l r i da db :
  mapM f l = Ok r -> i < length l -> f (nth i l da) = Ok (nth i r db).
Proof.
  revert r i; induction l as [|a l IH]; simpl; intros r i H Hi; [lia|].
  destruct (f a) as [b|e] eqn:E; simpl in H; [|discriminate].
  destruct (mapM f l) as [bs|e] eqn:E2; simpl in H; [|discriminate]. inversion H; subst.
  destruct i; simpl; auto. apply IH; auto. lia.
Qed.

(** ** uniq, pos_of, dict_get *)
Lemma uniq_In l t : In t (uniq l) <-> In t l.
Proof.
  induction l as [|a l IH]; simpl; [tauto|]. rewrite filter_In, IH.
  destruct (Z.eqb_spec t a); subst; simpl; intuition congruence.
Qed.
Lemma uniq_nodup l : NoDup l -> uniq l = l.
Proof.
  induction l as [|a l IH]; simpl; auto; intros H. inversion H; subst. rewrite IH by auto. f_equal.
  apply filter_all. intros x Hx. destruct (Z.eqb_spec x a); subst; simpl; auto; tauto.
Qed.
Lemma filter_filter {A} (p q : A -> bool) l : filter p (filter q l) = filter (fun x => q x && p x) l.
Proof. induction l as [|a l IH]; simpl; auto. destruct (q a); simpl; destruct (p a); simpl; rewrite IH; auto. Qed.
Lemma uniq_app l1 l2 : uniq (l1 ++ l2) = uniq l1 ++ filter (fun t => negb (mem t l1)) (uniq l2).
Proof.
  induction l1 as [|a l1 IH]; simpl.
  - symmetry; apply filter_all; auto.
  - rewrite IH, filter_app, filter_filter. f_equal. f_equal. apply filter_ext. intros t.
    destruct (t =? a)%Z; simpl; auto using andb_true_r, andb_false_r.
Qed.
Lemma mem_In t l : mem t l = true <-> In t l.
Proof.
  unfold mem. rewrite existsb_exists. split.
  - intros (x & H & E). apply Z.eqb_eq in E; subst; auto.
  - intros H; exists t; split; auto. apply Z.eqb_refl.
Qed.
Lemma uniq_app_incl l1 l2 : NoDup l1 -> incl l2 l1 -> uniq (l1 ++ l2) = l1.
Proof.
  intros H H2. rewrite uniq_app, uniq_nodup, filter_none, app_nil_r; auto.
  intros x Hx. apply (proj1 (uniq_In _ _)) in Hx. apply H2 in Hx. apply mem_In in Hx. rewrite Hx; auto.
Qed.

Lemma dict_get_In {V} (d : tdict V) t v : dict_get Z.eqb d t = Some v -> In (t, v) d.
Proof.
  induction d as [|[k w] d IH]; simpl; [discriminate|]. destruct (Z.eqb_spec t k); subst; intros H.
  - inversion H; auto.
  - auto.
Qed.
Lemma dict_get_in {V} (d : tdict V) t v : NoDup (map fst d) -> In (t, v) d -> dict_get Z.eqb d t = Some v.
Proof.
  induction d as [|[k w] d IH]; simpl; [tauto|]; intros H [E|Hi]; inversion H; subst.
  - inversion E; subst. rewrite Z.eqb_refl; auto.
  - destruct (Z.eqb_spec t k); subst; auto. exfalso; apply H2. apply in_map_iff. exists (k, v); auto.
Qed.
Lemma dict_get_none {V} (d : tdict V) t : dict_get Z.eqb d t = None <-> ~ In t (map fst d).
Proof.
  induction d as [|[k w] d IH]; simpl; [tauto|]. destruct (Z.eqb_spec t k); subst.
  - split; [discriminate|intros H; exfalso; apply H; auto].
  - rewrite IH. intuition.
Qed.
Lemma dict_get_key {V} (d : tdict V) t : In t (map fst d) -> exists v, dict_get Z.eqb d t = Some v.
Proof.
  intros H. destruct (dict_get Z.eqb d t) eqn:E; eauto. apply dict_get_none in E; tauto.
Qed.
Lemma kget_in {V} (d : kdict V) k v : NoDup (map fst d) -> In (k, v) d -> dict_get String.eqb d k = Some v.
Proof.
  induction d as [|[j w] d IH]; simpl; [tauto|]; intros H [E|Hi]; inversion H; subst.
  - inversion E; subst. rewrite String.eqb_refl; auto.
  - destruct (String.eqb_spec k j); subst; auto. exfalso; apply H2. apply in_map_iff. exists (j, v); auto.
Qed.
Lemma kget_In {V} (d : kdict V) k v : dict_get String.eqb d k = Some v -> In (k, v) d.
Proof.
  induction d as [|[j w] d IH]; simpl; [discriminate|]. destruct (String.eqb_spec k j); subst; intros H.
  - inversion H; auto.
  - auto.
Qed.
Lemma kget_none {V} (d : kdict V) k : dict_get String.eqb d k = None <-> ~ In k (map fst d).
Proof.
  induction d as [|[j w] d IH]; simpl; [tauto|]. destruct (String.eqb_spec k j); subst.
  - split; [discriminate|intros H; exfalso; apply H; auto].
  - rewrite IH. intuition.
Qed.

Lemma pos_of_nth l i d : NoDup l -> i < length l -> pos_of l (nth i l d) = Some i.
Proof.
  revert i; induction l as [|a l IH]; simpl; intros i H Hi; [lia|]. inversion H; subst.
  destruct i as [|i]; [rewrite Z.eqb_refl; auto|].
  destruct (Z.eqb_spec a (nth i l d)).
  - exfalso. apply H2. rewrite e. apply nth_In. lia.
  - rewrite IH; auto. lia.
Qed.
Lemma pos_of_some l t i d : pos_of l t = Some i -> i < length l /\ nth i l d = t.
Proof.
  revert i; induction l as [|a l IH]; simpl; intros i H; [discriminate|].
  destruct (Z.eqb_spec a t); [inversion H; subst; split; [lia|auto]|].
  destruct (pos_of l t) as [j|]; simpl in H; [|discriminate]. inversion H; subst.
  destruct (IH j eq_refl). split; [lia|auto].
Qed.
Lemma pos_of_none l t : pos_of l t = None <-> ~ In t l.
Proof.
  induction l as [|a l IH]; simpl; [tauto|]. destruct (Z.eqb_spec a t).
  - split; [discriminate|tauto].
  - destruct (pos_of l t); simpl; split; intros H; try discriminate; intuition; try congruence.
Qed.

(** ** Tabulated frames *)
Definition tab {C} (keys : list string) (idx : list Z) (f : string -> Z -> C) : oframe C :=
  mkOF idx (map (fun k => (k, map (fun t => Some (f k t)) idx)) keys).

Lemma tab_ext {C} keys idx (f g : string -> Z -> C) :
  (forall k t, In k keys -> In t idx -> f k t = g k t) -> tab keys idx f = tab keys idx g.
Proof.
  intros H. unfold tab. f_equal. apply map_ext_in. intros k Hk. f_equal. apply map_ext_in. intros t Ht.
  rewrite H; auto.
Qed.

(** Frames from dictionaries that all cover [idx]. *)
Lemma df_tab {C} (d : kdict (tdict C)) idx (f : string -> Z -> C) :
  NoDup idx ->
  match d with [] => idx = [] | kd :: _ => map fst (snd kd) = idx end ->
  (forall kd, In kd d -> incl (map fst (snd kd)) idx) ->
  (forall kd t, In kd d -> In t idx -> dict_get Z.eqb (snd kd) t = Some (f (fst kd) t)) ->
  df_of_dicts d = tab (map fst d) idx f.
Proof.
  intros Hn H1 H2 H3. unfold df_of_dicts.
  assert (E : uniq (concat (map (fun kd => map fst (snd kd)) d)) = idx).
  { destruct d as [|kd d]; [subst; auto|]. simpl. rewrite H1. apply uniq_app_incl; auto.
    intros t Ht. apply in_concat in Ht. destruct Ht as (l & Hl & Ht). apply in_map_iff in Hl.
    destruct Hl as (kd' & <- & Hk). apply (H2 kd'); simpl; auto. }
  rewrite E. unfold tab. f_equal. rewrite map_map. apply map_ext_in. intros kd Hk. f_equal.
  apply map_ext_in. intros t Ht. apply H3; auto.
Qed.

Lemma combine_repeat_true {A} (l : list A) m : length l = m ->
  map fst (filter snd (combine l (repeat true m))) = l.
Proof. intros <-. induction l; simpl; auto. f_equal; auto. Qed.

Lemma removelast_prev {C} (g : Z -> C) idx : NoDup idx ->
  removelast (map g idx) = map (fun t => g (prev idx t)) (tl idx).
Proof.
  induction idx as [|a idx IH]; intros H; auto. inversion H; subst.
  destruct idx as [|b idx]; auto.
  change (removelast (map g (a :: b :: idx))) with (g a :: removelast (map g (b :: idx))).
  rewrite IH by auto. simpl. rewrite Z.eqb_refl. f_equal.
  apply map_ext_in. intros t Ht. f_equal. destruct (Z.eqb_spec b t); auto.
  subst. inversion H3; subst; tauto.
Qed.

Lemma removelast_map {A B} (g : A -> B) l : removelast (map g l) = map g (removelast l).
Proof. induction l as [|a [|b l] IH]; auto. simpl in *. f_equal; auto. Qed.

Lemma shift_dropna_tab {C} keys idx (f : string -> Z -> C) :
  NoDup idx -> (keys = [] -> idx = []) ->
  dropna_any (shift1 (tab keys idx f)) = tab keys (tl idx) (fun k t => f k (prev idx t)).
Proof.
  intros Hn Hk. unfold dropna_any, shift1, tab. cbn [o_idx o_cols].
  destruct idx as [|a idx].
  - simpl. f_equal. rewrite !map_map. apply map_ext. intros k; reflexivity.
  - set (cols := map _ (map (fun k => (k, _)) keys)).
    assert (Ec : cols = map (fun k => (k, None :: map (fun t => Some (f k (prev (a :: idx) t))) idx)) keys).
    { unfold cols. rewrite map_map. apply map_ext. intros k. cbn [fst snd]. f_equal.
      cbn [map]. f_equal. change (Some (f k a) :: map (fun t => Some (f k t)) idx) with (map (fun t => Some (f k t)) (a :: idx)).
      rewrite removelast_prev by auto. reflexivity. }
    rewrite Ec. clear Ec cols.
    assert (Ek : map (fun i => forallb (fun kc => is_some (nth i (snd kc) None))
                   (map (fun k => (k, None :: map (fun t => Some (f k (prev (a :: idx) t))) idx)) keys))
                   (seq 0 (length (a :: idx))) = false :: repeat true (length idx)).
    { cbn [length seq map]. f_equal.
      - destruct keys as [|k keys]; [specialize (Hk eq_refl); discriminate|]. reflexivity.
      - rewrite <- seq_shift, map_map.
        rewrite (map_ext_in _ (fun _ => true)).
        + clear. set (n := length idx). clearbody n. generalize 0.
          induction n as [|n IH]; intros s; simpl; auto. f_equal; auto.
        + intros i Hi. apply in_seq in Hi. apply forallb_forall. intros kc Hkc. apply in_map_iff in Hkc.
          destruct Hkc as (k & <- & _). cbn [snd nth].
          rewrite nth_map_lt with (a := 0%Z) by lia. reflexivity. }
    rewrite Ek. cbn [combine filter snd tl]. f_equal.
    + apply combine_repeat_true; auto.
    + rewrite map_map. apply map_ext. intros k. cbn [fst snd combine filter]. f_equal.
      apply combine_repeat_true. rewrite map_length; auto.
Qed.

Lemma oloc_tab {C} keys idx (f : string -> Z -> C) t : In t idx ->
  oloc (tab keys idx f) t = Ok (map (fun k => Some (f k t)) keys).
Proof.
  intros H. unfold oloc, tab. cbn [o_idx o_cols].
  destruct (pos_of idx t) as [i|] eqn:E; [|apply pos_of_none in E; tauto].
  destruct (pos_of_some _ _ _ 0%Z E) as [H1 H2]. rewrite map_map. f_equal. apply map_ext. intros k.
  cbn [snd]. rewrite nth_map_lt with (a := 0%Z) by auto. rewrite H2. auto.
Qed.
Lemma oloc_tab_none {C} keys idx (f : string -> Z -> C) t : ~ In t idx ->
  oloc (tab keys idx f) t = Raise KeyError.
Proof. intros H. unfold oloc, tab. cbn [o_idx]. apply pos_of_none in H. rewrite H. auto. Qed.

Lemma opt_cells_some {C} (l : list C) : opt_cells (map Some l) = Ok l.
Proof. unfold opt_cells. rewrite mapM_map. erewrite mapM_ok; [|intros; reflexivity]. rewrite map_id; auto. Qed.

Lemma items_tab {C} (idx : list Z) (g : Z -> C) :
  combine idx (map (fun t => Some (g t)) idx) = map (fun t => (t, Some (g t))) idx.
Proof. induction idx; simpl; auto. f_equal; auto. Qed.

Lemma dict_get_tabulate {V} (idx : list Z) (g : Z -> V) t :
  In t idx -> dict_get Z.eqb (map (fun t => (t, g t)) idx) t = Some (g t).
Proof.
  induction idx as [|a idx IH]; simpl; [tauto|]. destruct (Z.eqb_spec t a); [subst; auto|].
  intros [->|H]; [tauto|auto].
Qed.
Lemma kget_tabulate {V} (keys : list string) (g : string -> V) k :
  In k keys -> dict_get String.eqb (map (fun k => (k, g k)) keys) k = Some (g k).
Proof.
  induction keys as [|a keys IH]; simpl; [tauto|]. destruct (String.eqb_spec k a); [subst; auto|].
  intros [->|H]; [tauto|auto].
Qed.
Lemma map_fst_tabulate {A V} (l : list A) (g : A -> V) : map fst (map (fun t => (t, g t)) l) = l.
Proof. rewrite map_map. apply map_id. Qed.

(** df_of_dicts of dictionaries that are tabulated on the same index. *)
Lemma df_tabulated {C} (keys : list string) idx (f : string -> Z -> C) :
  NoDup idx -> (keys = [] -> idx = []) ->
  df_of_dicts (map (fun k => (k, map (fun t => (t, f k t)) idx)) keys) = tab keys idx f.
Proof.
  intros Hn Hk. rewrite df_tab with (idx := idx) (f := f); auto.
  - rewrite map_map. cbn [fst]. rewrite map_id. auto.
  - destruct keys; simpl; auto. apply map_fst_tabulate.
  - intros kd H. apply in_map_iff in H. destruct H as (k & <- & _). cbn [snd]. rewrite map_fst_tabulate. apply incl_refl.
  - intros kd t H Ht. apply in_map_iff in H. destruct H as (k & <- & _). cbn [fst snd]. apply (dict_get_tabulate idx (f k)); auto.
Qed.
