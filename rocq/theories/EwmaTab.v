(** * Tabulated form of the pipeline: every stage as a function of (asset, time position). *)
From Coq Require Import String List Bool ZArith Arith Lia.
From Verif Require Import Num Py ListFacts Ewma EwmaTot EwmaPrefix EwmaEquiv.
Import ListNotations.

(** Rows 0..T-1 with entries u j k (asset j, position k). *)
Definition trow {A} (n : nat) (u : nat -> nat -> A) (k : nat) : list A := map (fun j => u j k) (seq 0 n).
Definition tabl {A} (T n : nat) (u : nat -> nat -> A) : list (list A) := map (trow n u) (seq 0 T).
Definition mtab {A} (n : nat) (m : nat -> nat -> A) : list (list A) :=
  map (fun i => map (fun j => m i j) (seq 0 n)) (seq 0 n).

Lemma trow_length {A} n (u : nat -> nat -> A) k : length (trow n u k) = n.
Proof. unfold trow; rewrite map_length, seq_length; auto. Qed.
Lemma tabl_length {A} T n (u : nat -> nat -> A) : length (tabl T n u) = T.
Proof. unfold tabl; rewrite map_length, seq_length; auto. Qed.
Lemma trow_nth {A} n (u : nat -> nat -> A) k j d : j < n -> nth j (trow n u k) d = u j k.
Proof. intros; unfold trow. rewrite (nth_map_lt _ _ _ 0) by (rewrite seq_length; auto). rewrite nth_seq0; auto. Qed.
Lemma tabl_nth {A} T n (u : nat -> nat -> A) k d : k < T -> nth k (tabl T n u) d = trow n u k.
Proof. intros; unfold tabl. rewrite (nth_map_lt _ _ _ 0) by (rewrite seq_length; auto). rewrite nth_seq0; auto. Qed.
Lemma trow_ext {A} n (u v : nat -> nat -> A) k : (forall j, j < n -> u j k = v j k) -> trow n u k = trow n v k.
Proof. intros H; apply map_ext_in; intros j Hj; apply in_seq in Hj; apply H; lia. Qed.
Lemma tabl_ext {A} T n (u v : nat -> nat -> A) : (forall j k, j < n -> k < T -> u j k = v j k) -> tabl T n u = tabl T n v.
Proof. intros H; apply map_ext_in; intros k Hk; apply in_seq in Hk; apply trow_ext; intros; apply H; lia. Qed.
Lemma map_trow {A B} (g : A -> B) n u k : map g (trow n u k) = trow n (fun j k => g (u j k)) k.
Proof. unfold trow; rewrite map_map; auto. Qed.
Lemma map_map_tabl {A B} (g : A -> B) T n u : map (map g) (tabl T n u) = tabl T n (fun j k => g (u j k)).
Proof. unfold tabl; rewrite map_map. apply map_ext; intros; apply map_trow. Qed.
Lemma map2_trow {A B C} (g : A -> B -> C) n u v k k' :
  map2 g (trow n u k) (trow n v k') = map (fun j => g (u j k) (v j k')) (seq 0 n).
Proof. unfold trow. apply map2_self. Qed.
Lemma tabl_len {A} T n (u : nat -> nat -> A) : rows_len n (tabl T n u).
Proof. apply Forall_forall. intros r Hr. apply in_map_iff in Hr. destruct Hr as (k & <- & _). apply trow_length. Qed.

(** Every list of rows of width n is tabulated by its own entries. *)
Lemma tabl_of {A} (d : A) n l : rows_len n l -> l = tabl (length l) n (fun j k => nth j (nth k l []) d).
Proof.
  intros H. apply (list_eq_nth []); [rewrite tabl_length; auto|]. intros k Hk.
  rewrite tabl_nth by auto. apply (list_eq_nth d).
  - rewrite trow_length. apply (Forall_nth_lt (fun r => length r = n)); auto.
  - intros j Hj. rewrite trow_nth; auto. rewrite <- (Forall_nth_lt _ l [] k H Hk). auto.
Qed.

Lemma mtab_nth {A} n (m : nat -> nat -> A) i j d d' : i < n -> j < n -> nth j (nth i (mtab n m) d) d' = m i j.
Proof.
  intros. unfold mtab. rewrite (nth_map_lt _ _ _ 0) by (rewrite seq_length; auto).
  rewrite (nth_map_lt _ _ _ 0) by (rewrite seq_length; auto). rewrite !nth_seq0; auto.
Qed.
Lemma mtab_ext {A} n (m m' : nat -> nat -> A) : (forall i j, i < n -> j < n -> m i j = m' i j) -> mtab n m = mtab n m'.
Proof.
  intros H; apply map_ext_in; intros i Hi; apply map_ext_in; intros j Hj. apply in_seq in Hi, Hj. apply H; lia.
Qed.

Section Tab.
  Context {N : Num}.

  (** Scalar recursion. *)
  Fixpoint nst (b : num) (mp : nat) (c : option num) (u : nat -> num) (k : nat) : num :=
    match k with
    | O => u 0
    | S k' => upd b mp c k (nst b mp c u k') (u k)
    end.

  Lemma nst_ext b mp c u v k : (forall s, s <= k -> u s = v s) -> nst b mp c u k = nst b mp c v k.
  Proof. induction k; simpl; intros H; [apply H; auto|]. rewrite IHk, (H (S k)); auto. Qed.

  Lemma loop_tab b mp c n u m k :
    general_loop map2 b (fun x : vec => x) mp c (S k) (trow n (fun j => nst b mp c (u j)) k)
      (map (trow n u) (seq (S k) m)) =
    map (trow n (fun j => nst b mp c (u j))) (seq (S k) m).
  Proof.
    revert k; induction m as [|m IH]; intros k; auto. cbn [seq map general_loop].
    rewrite map2_trow.
    change (map (fun j => upd b mp c (S k) (nst b mp c (u j) k) (u j (S k))) (seq 0 n))
      with (trow n (fun j => nst b mp c (u j)) (S k)).
    f_equal. apply IH.
  Qed.

  Lemma states_tab b mp c T n u :
    states map2 b (fun x : vec => x) mp c (tabl T n u) = tabl T n (fun j => nst b mp c (u j)).
  Proof.
    unfold tabl. destruct T as [|T]; auto. cbn [seq map states]. f_equal.
    apply (loop_tab b mp c n u T 0).
  Qed.

  Lemma outer_trow n u k : outer (trow n u k) (trow n u k) = mtab n (fun i j => nmul (u i k) (u j k)).
  Proof. unfold outer, trow, mtab. rewrite map_map. apply map_ext; intros i. rewrite map_map. auto. Qed.

  Lemma mmap2_mtab (g : num -> num -> num) n a b :
    mmap2 g (mtab n a) (mtab n b) = mtab n (fun i j => g (a i j) (b i j)).
  Proof. unfold mmap2, mtab. rewrite map2_self. apply map_ext; intros i. apply map2_self. Qed.

  Definition cst (b : num) (mp : nat) (u : nat -> nat -> num) (k i j : nat) : num :=
    nst b mp None (fun s => nmul (u i s) (u j s)) k.

  Lemma loop_mtab b mp n u m k :
    general_loop mmap2 b (fun x : vec => outer x x) mp None (S k) (mtab n (cst b mp u k))
      (map (trow n u) (seq (S k) m)) =
    map (fun k => mtab n (cst b mp u k)) (seq (S k) m).
  Proof.
    revert k; induction m as [|m IH]; intros k; auto. cbn [seq map general_loop].
    rewrite outer_trow, mmap2_mtab.
    change (mtab n (fun i j => upd b mp None (S k) (cst b mp u k i j) (nmul (u i (S k)) (u j (S k)))))
      with (mtab n (cst b mp u (S k))).
    f_equal. apply IH.
  Qed.

  Lemma states_mtab b mp T n u :
    states mmap2 b (fun x : vec => outer x x) mp None (tabl T n u) =
    map (fun k => mtab n (cst b mp u k)) (seq 0 T).
  Proof.
    unfold tabl. destruct T as [|T]; auto. cbn [seq map states]. rewrite outer_trow. f_equal.
    apply (loop_mtab b mp n u T 0).
  Qed.

  Lemma mask_from_map {V} (vmap : (num -> num) -> V -> V) mp k0 m (g : nat -> V) :
    mask_from vmap mp k0 (map g (seq k0 m)) = map (fun k => masked vmap mp k (g k)) (seq k0 m).
  Proof. revert k0; induction m; intros k0; simpl; auto. f_equal; auto. Qed.

  Definition msk (mp k : nat) (x : num) : num := if k + 1 <? mp then nmul x nnan else x.

  Lemma mask_tab mp T n s :
    mask_from (@map num num) mp 0 (tabl T n s) = tabl T n (fun j k => msk mp k (s j k)).
  Proof.
    unfold tabl. rewrite mask_from_map. apply map_ext; intros k. unfold masked, msk, trow.
    destruct (k + 1 <? mp); auto. apply map_map.
  Qed.

  Lemma mask_mtab mp T n (s : nat -> nat -> nat -> num) :
    mask_from mmap mp 0 (map (fun k => mtab n (s k)) (seq 0 T)) =
    map (fun k => mtab n (fun i j => msk mp k (s k i j))) (seq 0 T).
  Proof.
    rewrite mask_from_map. apply map_ext; intros k. unfold masked, msk.
    destruct (k + 1 <? mp); auto. unfold mmap, mtab. rewrite map_map. apply map_ext; intros i. rewrite map_map; auto.
  Qed.

  (** Tabulated frames; [tm idx k] is the k-th label. *)
  Definition ftab (idx : list time) (cols : list string) (u : nat -> nat -> num) : frame time :=
    mkFrame idx cols (tabl (length idx) (length cols) u).
  Definition tm (idx : list time) (k : nat) : time := nth k idx 0%Z.

  Lemma ftab_of f : length (findex f) = length (fvals f) -> rows_len (length (fcols f)) (fvals f) ->
    f = ftab (findex f) (fcols f) (fun j k => nth j (nth k (fvals f) []) n0).
  Proof.
    intros H1 H2. unfold ftab. destruct f as [idx cols vals]; simpl in *. f_equal. rewrite H1. apply tabl_of; auto.
  Qed.

  Lemma ftab_ext idx cols u v :
    (forall j k, j < length cols -> k < length idx -> u j k = v j k) -> ftab idx cols u = ftab idx cols v.
  Proof. intros H; unfold ftab; f_equal; apply tabl_ext; auto. Qed.

  Lemma ftab_fw idx cols u : NoDup idx -> fw (length cols) (ftab idx cols u).
  Proof. intros H; split; [split; simpl; [rewrite tabl_length|]; auto|apply tabl_len]. Qed.
  Lemma ftab_good idx cols u : NoDup idx -> good (ftab idx cols u).
  Proof. intros H; apply (ftab_fw _ cols u H). Qed.

  Lemma fmap_ftab g idx cols u : fmap g (ftab idx cols u) = ftab idx cols (fun j k => g (u j k)).
  Proof. unfold fmap, ftab; simpl. f_equal. apply map_map_tabl. Qed.

  (** Frames restricted to a list of positions [ks]. *)
  Definition ptab (idx : list time) (cols : list string) (u : nat -> nat -> num) (ks : list nat) : frame time :=
    mkFrame (map (tm idx) ks) cols (map (trow (length cols) u) ks).

  Lemma map_tm_seq idx : map (tm idx) (seq 0 (length idx)) = idx.
  Proof.
    apply (list_eq_nth 0%Z); [rewrite map_length, seq_length; auto|].
    intros k Hk. rewrite map_length, seq_length in Hk.
    rewrite (nth_map_lt _ _ _ 0) by (rewrite seq_length; auto). rewrite nth_seq0; auto.
  Qed.

  Lemma ftab_ptab idx cols u : ftab idx cols u = ptab idx cols u (seq 0 (length idx)).
  Proof. unfold ftab, ptab. rewrite map_tm_seq. reflexivity. Qed.

  Lemma ptab_ftab idx cols u ks :
    ptab idx cols u ks = ftab (map (tm idx) ks) cols (fun j i => u j (nth i ks 0)).
  Proof.
    unfold ptab, ftab. f_equal. rewrite map_length. unfold tabl.
    apply (list_eq_nth []); [rewrite !map_length, seq_length; auto|]. intros k Hk. rewrite map_length in Hk.
    rewrite (nth_map_lt _ ks k 0) by auto.
    rewrite (nth_map_lt _ _ k 0) by (rewrite seq_length; auto). rewrite nth_seq0; auto.
  Qed.

  Lemma ptab_ext idx cols u v ks :
    (forall j k, j < length cols -> In k ks -> u j k = v j k) -> ptab idx cols u ks = ptab idx cols v ks.
  Proof. intros H; unfold ptab; f_equal. apply map_ext_in; intros k Hk. apply trow_ext; auto. Qed.

  Lemma combine_map_map {A B C} (g : A -> B) (h : A -> C) l : combine (map g l) (map h l) = map (fun x => (g x, h x)) l.
  Proof. induction l; simpl; auto. f_equal; auto. Qed.

  Definition alln (n : nat) (u : nat -> nat -> num) (k : nat) : bool := forallb (fun j => nisnan (u j k)) (seq 0 n).

  Lemma dropna_ptab idx cols u ks :
    fdropna_all (ptab idx cols u ks) = ptab idx cols u (filter (fun k => negb (alln (length cols) u k)) ks).
  Proof.
    unfold fdropna_all, ptab; simpl. rewrite combine_map_map, filter_map_comm, !map_map. simpl.
    assert (E : filter (fun x => negb (all_nan (trow (length cols) u x))) ks = filter (fun k => negb (alln (length cols) u k)) ks).
    { apply filter_ext; intros k. unfold all_nan, alln, trow. rewrite forallb_map; auto. }
    rewrite E; reflexivity.
  Qed.

  Lemma dropna_ftab idx cols u :
    fdropna_all (ftab idx cols u) =
    ptab idx cols u (filter (fun k => negb (alln (length cols) u k)) (seq 0 (length idx))).
  Proof. rewrite ftab_ptab. apply dropna_ptab. Qed.

  (** EWMA mean of a tabulated frame. *)
  Lemma meanf_ftab b mp c idx cols u :
    meanf_tot b mp c (ftab idx cols u) =
    ptab idx cols (fun j k => msk mp k (nst b mp c (u j) k))
      (filter (fun k => negb (alln (length cols) (fun j k => msk mp k (nst b mp c (u j) k)) k)) (seq 0 (length idx))).
  Proof.
    rewrite <- dropna_ftab. unfold meanf_tot, mean_tot, gen_tot, toframe, fdropna_all, ftab. simpl.
    rewrite states_tab, mask_tab. reflexivity.
  Qed.

  (** Look-up by label. *)
  Lemma row_at_map idx ks (rows : nat -> vec) k :
    NoDup idx -> (forall q, In q ks -> q < length idx) -> k < length idx ->
    row_at (map (tm idx) ks) (map rows ks) (tm idx k) = if existsb (Nat.eqb k) ks then Some (rows k) else None.
  Proof.
    intros Hd Hks Hk. induction ks as [|q ks IH]; simpl; auto.
    destruct (Nat.eqb_spec k q) as [->|Hne].
    - rewrite Z.eqb_refl. reflexivity.
    - destruct (Z.eqb_spec (tm idx k) (tm idx q)) as [E|E].
      + exfalso. apply Hne. unfold tm in E. eapply (proj1 (NoDup_nth idx 0%Z)); eauto. apply Hks; simpl; auto.
      + simpl. apply IH. intros; apply Hks; simpl; auto.
  Qed.

  Lemma floc_ptab idx cols u ks k :
    NoDup idx -> (forall q, In q ks -> q < length idx) -> k < length idx ->
    floc (ptab idx cols u ks) (tm idx k) = if existsb (Nat.eqb k) ks then Some (trow (length cols) u k) else None.
  Proof. intros; apply row_at_map; auto. Qed.

  Lemma existsb_eqb_In k ks : existsb (Nat.eqb k) ks = true <-> In k ks.
  Proof.
    rewrite existsb_exists. split.
    - intros (x & Hx & E). apply Nat.eqb_eq in E; subst; auto.
    - intros H; exists k; split; auto. apply Nat.eqb_refl.
  Qed.

  (** Alignment of two frames over positions of the same base index. *)
  Lemma falign_ptab op idx cols u v ks ks' :
    NoDup idx -> (forall q, In q ks -> q < length idx) -> (forall q, In q ks' -> q < length idx) ->
    falign op (ptab idx cols u ks) (ptab idx cols v ks') =
    ptab idx cols (fun j k => if existsb (Nat.eqb k) ks' then op (u j k) (v j k) else nnan) ks.
  Proof.
    intros Hd H1 H2. unfold falign. cbn [ptab findex fcols fvals]. unfold ptab at 2. f_equal.
    rewrite map2_self. apply map_ext_in. intros k Hk. rewrite (floc_ptab idx cols v ks' k); auto.
    unfold trow. destruct (existsb (Nat.eqb k) ks'); [apply map2_self | apply map_map].
  Qed.

  Lemma cov_ftab b mp idx cols u :
    cov_tot b mp (ftab idx cols u) =
    map (fun k => (tm idx k, mkFrame cols cols (mtab (length cols) (fun i j => msk mp k (cst b mp u k i j)))))
      (filter (fun k => negb (all_nan_mat (mtab (length cols) (fun i j => msk mp k (cst b mp u k i j)))))
         (seq 0 (length idx))).
  Proof.
    unfold cov_tot, gen_tot. cbn [ftab fvals findex fcols]. rewrite states_mtab, mask_mtab.
    rewrite <- (map_tm_seq idx) at 1. rewrite combine_map_map, filter_map_comm, !map_map. reflexivity.
  Qed.

  Lemma scale_cov_mtab vola rows cols n m :
    length vola = n ->
    fvals (scale_cov vola (mkFrame rows cols (mtab n m))) =
    mtab n (fun i j => nmul (nmul (nth i vola n0) (nmul (nmul (inv_vol (m i i)) (m i j)) (inv_vol (m j j)))) (nth j vola n0)).
  Proof.
    intros Hv.
    assert (Hsq : sq n (mtab n m)).
    { split; [unfold mtab; rewrite map_length, seq_length; auto|]. apply Forall_forall. intros r Hr.
      apply in_map_iff in Hr. destruct Hr as (i & <- & _). rewrite map_length, seq_length; auto. }
    assert (Hsq2 : sq n (fvals (scale_cov vola (mkFrame rows cols (mtab n m))))).
    { apply scale_cov_sq; auto. }
    destruct Hsq2 as [L1 L2].
    apply (list_eq_nth []).
    { rewrite L1. unfold mtab; rewrite map_length, seq_length; auto. }
    intros i Hi. rewrite L1 in Hi.
    apply (list_eq_nth n0).
    { rewrite (Forall_nth_lt _ _ _ _ L2) by lia. unfold mtab. rewrite (nth_map_lt _ _ _ 0) by (rewrite seq_length; auto).
      rewrite map_length, seq_length; auto. }
    intros j Hj. rewrite (Forall_nth_lt _ _ _ _ L2) in Hj by lia.
    rewrite (scale_cov_entry n); auto. cbn [fvals]. rewrite !mtab_nth by auto. reflexivity.
  Qed.
End Tab.
