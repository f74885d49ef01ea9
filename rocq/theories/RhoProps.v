(** * construct_rho: proofs. *)
From Coq Require Import Reals List Lia Lra.
From Verif Require Import Py Rho SpecRho.
Import ListNotations.
Local Open Scope R_scope.

Definition fac : R := Rpower (1 / 2) (1 / 125).
Lemma fac_pos : 0 < fac. Proof. unfold fac, Rpower. apply exp_pos. Qed.
Lemma factor_eq : old_wt_factor 125 = fac.
Proof.
  unfold old_wt_factor, fac, Rpower. replace (1 / 125 * ln (1 / 2)) with (ln (1 / 2) / 125) by field.
  assert (H : exp (ln (1 / 2) / 125) < 1).
  { assert (E : ln (1 / 2) < 0) by (pose proof (ln_increasing (1 / 2) 1 ltac:(lra) ltac:(lra)) as E0; now rewrite ln_1 in E0).
    assert (E2 : exp (ln (1 / 2) / 125) < exp 0) by (apply exp_increasing; lra). now rewrite exp_0 in E2. }
  field. split; lra.
Qed.
Lemma weight_S a : weight (S a) = weight a * fac.
Proof. unfold weight, fac. rewrite S_INR, <- Rpower_plus. f_equal. field. Qed.
Lemma weight_0 : weight 0 = 1.
Proof. unfold weight. simpl. unfold Rdiv. rewrite Rmult_0_l. apply Rpower_O. lra. Qed.
Lemma weight_pos a : 0 < weight a. Proof. unfold weight, Rpower. apply exp_pos. Qed.

(** Appending a position makes every observation one older. *)
Definition opick (p : nat * option R) : list (nat * R) := match snd p with Some v => [(fst p, v)] | None => [] end.
Lemma pick_shift (l : list (option R)) k :
  flat_map opick (combine (seq (S k) (length l)) l) = map (fun p => (S (fst p), snd p)) (flat_map opick (combine (seq k (length l)) l)).
Proof.
  revert k; induction l as [|x l IH]; intros k; [reflexivity|]. simpl. rewrite map_app, IH. f_equal. unfold opick; simpl. now destruct x.
Qed.
Lemma observed_snoc xs x : observed (xs ++ [x]) =
  (match x with Some v => [(0%nat, v)] | None => [] end) ++ map (fun p => (S (fst p), snd p)) (observed xs).
Proof.
  unfold observed. fold opick. rewrite rev_app_distr, app_length, PeanoNat.Nat.add_1_r. simpl. rewrite <- (rev_length xs).
  f_equal. apply pick_shift.
Qed.
Lemma total_snoc g xs x : total g (xs ++ [x]) =
  (match x with Some v => g (0%nat, v) | None => 0 end) + total (fun p => g (S (fst p), snd p)) xs.
Proof.
  unfold total. rewrite observed_snoc, map_app, map_map. destruct x; simpl; [reflexivity|]. now rewrite Rplus_0_l.
Qed.
Lemma total_ext g h xs : (forall p, g p = h p) -> total g xs = total h xs.
Proof. intros H. unfold total. f_equal. now apply map_ext. Qed.
Lemma total_scal c g xs : total (fun p => c * g p) xs = c * total g xs.
Proof. unfold total. induction (observed xs) as [|p l IH]; simpl; [ring|]. rewrite IH. ring. Qed.
Lemma total_add g h xs : total (fun p => g p + h p) xs = total g xs + total h xs.
Proof. unfold total. induction (observed xs) as [|p l IH]; simpl; [ring|]. rewrite IH. ring. Qed.
Lemma total_ge0 g xs : (forall p, 0 <= g p) -> 0 <= total g xs.
Proof. intros H. unfold total. induction (observed xs) as [|p l IH]; simpl; [lra|]. specialize (H p). lra. Qed.
Lemma total_gt0 g xs : (forall p, 0 < g p) -> observed xs <> [] -> 0 < total g xs.
Proof.
  intros H Hne. unfold total. destruct (observed xs) as [|p l]; [easy|]. simpl. specialize (H p) as Hp.
  assert (0 <= fold_right Rplus 0 (map g l)). { induction l as [|q l IH]; simpl; [lra|]. specialize (H q). assert (0 <= fold_right Rplus 0 (map g l)) by (apply IH; easy). lra. }
  lra.
Qed.
Lemma w_pos xs : observed xs <> [] -> 0 < w_sum xs.
Proof. apply total_gt0. intros p. apply weight_pos. Qed.
Lemma w_snoc xs x : w_sum (xs ++ [x]) = (match x with Some _ => 1 | None => 0 end) + w_sum xs * fac.
Proof.
  unfold w_sum. rewrite total_snoc. simpl. rewrite weight_0. f_equal.
  rewrite (total_ext _ (fun p => fac * weight (fst p))); [now rewrite total_scal, Rmult_comm|]. intros [a v]; simpl. rewrite weight_S. ring.
Qed.
Lemma w2_snoc xs x : w2_sum (xs ++ [x]) = (match x with Some _ => 1 | None => 0 end) + w2_sum xs * (fac * fac).
Proof.
  unfold w2_sum. rewrite total_snoc. simpl. rewrite weight_0. f_equal; [destruct x; ring|].
  rewrite (total_ext _ (fun p => (fac * fac) * (weight (fst p) * weight (fst p)))); [rewrite total_scal; ring|]. intros [a v]; simpl. rewrite weight_S. ring.
Qed.
Definition s_sum xs := total (fun p => weight (fst p) * snd p) xs.
Definition q_sum m xs := total (fun p => weight (fst p) * (snd p - m) ^ 2) xs.
Lemma s_snoc xs x : s_sum (xs ++ [x]) = (match x with Some v => v | None => 0 end) + s_sum xs * fac.
Proof.
  unfold s_sum. rewrite total_snoc. simpl. rewrite weight_0. f_equal; [destruct x; ring|].
  rewrite (total_ext _ (fun p => fac * (weight (fst p) * snd p))); [rewrite total_scal; ring|]. intros [a v]; simpl. rewrite weight_S. ring.
Qed.
Lemma q_snoc m xs x : q_sum m (xs ++ [x]) = (match x with Some v => (v - m) ^ 2 | None => 0 end) + q_sum m xs * fac.
Proof.
  unfold q_sum. rewrite total_snoc. simpl. rewrite weight_0. f_equal; [destruct x; ring|].
  rewrite (total_ext _ (fun p => fac * (weight (fst p) * (snd p - m) ^ 2))); [rewrite total_scal; simpl; ring|]. intros [a v]; simpl. rewrite weight_S. ring.
Qed.
Lemma q_shift m m' xs : q_sum m' xs = q_sum m xs + 2 * (m - m') * (s_sum xs - m * w_sum xs) + (m - m') ^ 2 * w_sum xs.
Proof.
  unfold q_sum, s_sum, w_sum, total. induction (observed xs) as [|[a v] l IH]; simpl in *; [ring|]. rewrite IH. ring.
Qed.
Lemma q_mean xs m' : observed xs <> [] -> q_sum m' xs = q_sum (w_mean xs) xs + (w_mean xs - m') ^ 2 * w_sum xs.
Proof.
  intros H. rewrite (q_shift (w_mean xs) m'). unfold w_mean. fold (s_sum xs). pose proof (w_pos xs H). field. lra.
Qed.

Lemma observed_nil_sums xs : observed xs = [] -> w_sum xs = 0 /\ w2_sum xs = 0 /\ s_sum xs = 0.
Proof. intros H. unfold w_sum, w2_sum, s_sum, total. rewrite H. simpl. auto. Qed.

(** The state after a series. *)
Definition state_of (xs : list (option R)) : ewst :=
  match observed xs with
  | [] => ew_init
  | _ => mkEw (Some (w_mean xs)) (q_sum (w_mean xs) xs / w_sum xs) (w_sum xs) (w2_sum xs) (w_sum xs)
  end.
Lemma state_some xs : observed xs <> [] ->
  state_of xs = mkEw (Some (w_mean xs)) (q_sum (w_mean xs) xs / w_sum xs) (w_sum xs) (w2_sum xs) (w_sum xs).
Proof. unfold state_of. now destruct (observed xs). Qed.
Lemma state_step xs x : ew_step fac (state_of xs) x = state_of (xs ++ [x]).
Proof.
  pose proof fac_pos as Hf. destruct (observed xs) as [|p l] eqn:E.
  - destruct (observed_nil_sums xs E) as [Hw [Hw2 Hs]]. unfold state_of at 1. rewrite E. destruct x as [v|].
    + rewrite state_some; [|rewrite observed_snoc; simpl; discriminate].
      assert (Ew : w_sum (xs ++ [Some v]) = 1) by (rewrite w_snoc, Hw; ring).
      assert (Ew2 : w2_sum (xs ++ [Some v]) = 1) by (rewrite w2_snoc, Hw2; ring).
      assert (Em : w_mean (xs ++ [Some v]) = v). { unfold w_mean. fold (s_sum (xs ++ [Some v])). rewrite s_snoc, Hs, Ew. field. }
      rewrite Em, Ew, Ew2, q_snoc. unfold q_sum, total. rewrite E. simpl. unfold ew_step, ew_init. simpl. f_equal. field.
    + unfold state_of. rewrite observed_snoc, E. reflexivity.
  - assert (Hne : observed xs <> []) by (rewrite E; discriminate). clear E p l. rewrite (state_some xs Hne). pose proof (w_pos xs Hne) as Hw.
    assert (Hne' : observed (xs ++ [x]) <> []).
    { rewrite observed_snoc. destruct x; [discriminate|]. simpl. intros H. apply map_eq_nil in H. contradiction. }
    rewrite (state_some _ Hne'). pose proof (w_pos _ Hne') as Hw'. destruct x as [v|]; unfold ew_step; simpl.
    + assert (Hwf : 0 < w_sum xs * fac) by (apply Rmult_lt_0_compat; assumption).
      assert (Em : (w_sum xs * fac * w_mean xs + 1 * v) / (w_sum xs * fac + 1) = w_mean (xs ++ [Some v])).
      { unfold w_mean. fold (s_sum xs) (s_sum (xs ++ [Some v])). rewrite s_snoc, w_snoc. field. lra. }
      rewrite Em. set (m' := w_mean (xs ++ [Some v])). f_equal.
      * rewrite q_snoc, (q_mean xs m' Hne), w_snoc. field. lra.
      * rewrite w_snoc. ring.
      * rewrite w2_snoc. ring.
      * rewrite w_snoc. ring.
    + assert (Em : w_mean xs = w_mean (xs ++ [None])).
      { unfold w_mean. fold (s_sum xs) (s_sum (xs ++ [None])). rewrite s_snoc, w_snoc. field. lra. }
      rewrite <- Em. f_equal.
      * rewrite q_snoc, w_snoc. field. lra.
      * rewrite w_snoc. ring.
      * rewrite w2_snoc. ring.
      * rewrite w_snoc. ring.
Qed.
Lemma loop_nth pre xs t : (t < length xs)%nat ->
  nth t (ew_loop fac (state_of pre) xs) None = ew_var (state_of (pre ++ firstn (S t) xs)).
Proof.
  revert pre t; induction xs as [|x xs IH]; intros pre t Ht; simpl in Ht; [lia|]. simpl ew_loop. rewrite state_step.
  destruct t as [|t]; [reflexivity|]. simpl nth. rewrite IH by lia. simpl firstn. now rewrite <- app_assoc.
Qed.
Lemma loop_length st xs : length (ew_loop fac st xs) = length xs.
Proof. revert st; induction xs as [|x xs IH]; intros st; [reflexivity|]. simpl. now rewrite IH. Qed.

(** The denominator is positive iff there are two observations. *)
Definition gap xs := w_sum xs * w_sum xs - w2_sum xs.
Lemma gap_spec xs : ((length (observed xs) <= 1)%nat /\ gap xs = 0) \/ ((2 <= length (observed xs))%nat /\ 0 < gap xs).
Proof.
  pose proof fac_pos as Hf. induction xs as [|x xs IH] using rev_ind; [left; split; [simpl; lia|unfold gap, w_sum, w2_sum, total; simpl; ring]|].
  unfold gap in *. rewrite w_snoc, w2_snoc, observed_snoc, app_length, map_length.
  set (W := w_sum xs) in *. set (V := w2_sum xs) in *.
  assert (Hff : 0 < fac * fac) by (apply Rmult_lt_0_compat; assumption).
  destruct x as [v|]; simpl.
  - destruct (observed xs) as [|p l] eqn:E.
    + left. split; [simpl; lia|]. destruct (observed_nil_sums xs E) as [H1 [H2 _]]. unfold W, V. rewrite H1, H2. ring.
    + right. split; [simpl; lia|]. assert (HW : 0 < W) by (apply w_pos; rewrite E; discriminate).
      assert (0 < W * fac) by (apply Rmult_lt_0_compat; assumption).
      assert (Hg : 0 <= W * W - V) by (destruct IH as [[_ ->]|[_ H']]; lra).
      assert (0 <= fac * fac * (W * W - V)) by (apply Rmult_le_pos; lra). nra.
  - destruct IH as [[H1 H2]|[H1 H2]].
    + left. split; [lia|]. replace ((0 + W * fac) * (0 + W * fac) - (0 + V * (fac * fac))) with (fac * fac * (W * W - V)) by ring. rewrite H2. ring.
    + right. split; [lia|]. replace ((0 + W * fac) * (0 + W * fac) - (0 + V * (fac * fac))) with (fac * fac * (W * W - V)) by ring.
      apply Rmult_lt_0_compat; assumption.
Qed.
Lemma var_of xs : ew_var (state_of xs) = if Nat.leb 2 (length (observed xs)) then Some (w_var xs) else None.
Proof.
  destruct (observed xs) as [|p l] eqn:E.
  { unfold state_of. rewrite E. unfold ew_var, ew_init. simpl. destruct (Rlt_dec 0 (1 * 1 - 1)); [lra|reflexivity]. }
  assert (Hne : observed xs <> []) by (rewrite E; discriminate). rewrite (state_some xs Hne). unfold ew_var. simpl ew_w. simpl ew_w2. simpl ew_cov.
  fold (gap xs). pose proof (w_pos xs Hne) as Hw. rewrite <- E. destruct (gap_spec xs) as [[H1 H2]|[H1 H2]].
  - destruct (Rlt_dec 0 (gap xs)); [lra|]. destruct (Nat.leb_spec 2 (length (observed xs))); [lia|reflexivity].
  - destruct (Rlt_dec 0 (gap xs)); [|lra]. destruct (Nat.leb_spec 2 (length (observed xs))); [|lia]. f_equal.
    unfold w_var. fold (q_sum (w_mean xs) xs). unfold gap in *. field. split; lra.
Qed.

Lemma std_nth xs t : (t < length xs)%nat -> nth t (ewm_std 125 xs) None =
  if Nat.leb 2 (length (observed (firstn (S t) xs))) then Some (w_std (firstn (S t) xs)) else None.
Proof.
  intros Ht. unfold ewm_std. rewrite factor_eq. change None with (option_map sqrt None) at 1. rewrite map_nth.
  change ew_init with (state_of []). rewrite loop_nth by assumption. simpl app. rewrite var_of. now destruct (Nat.leb _ _).
Qed.

Definition dev (n_devs : R) (xs : list (option R)) : R := if Nat.leb 2 (length (observed xs)) then n_devs * w_std xs else 0.

Lemma frame_nth (A : Type) (g : nat -> A) n t d : (t < n)%nat -> nth t (map g (seq 0 n)) d = g t.
Proof. intros H. rewrite (nth_indep _ d (g 0%nat)) by (now rewrite map_length, seq_length). now rewrite map_nth, seq_nth. Qed.
Lemma removelast_nth (A : Type) (l : list A) t d : (S t < length l)%nat -> nth t (removelast l) d = nth t l d.
Proof.
  revert t; induction l as [|a l IH]; intros t H; simpl in H; [lia|]. destruct l as [|b l]; [simpl in H; lia|].
  change (removelast (a :: b :: l)) with (a :: removelast (b :: l)). destruct t as [|t]; [reflexivity|]. simpl nth. apply IH. simpl in *. lia.
Qed.
Lemma removelast_length (A : Type) (l : list A) : length (removelast l) = pred (length l).
Proof. induction l as [|a [|b l] IH]; [reflexivity|reflexivity|]. change (removelast (a :: b :: l)) with (a :: removelast (b :: l)). simpl in *. now rewrite IH. Qed.

Lemma rho_formula k rows n_devs : rows <> [] ->
  construct_rho k rows n_devs = Ok (map (fun t => map (fun j => dev n_devs (before t j rows)) (seq 0 k)) (seq 0 (length rows))).
Proof.
  intros Hne. unfold construct_rho. set (stds := map _ (seq 0 k)). set (frame := map _ (seq 0 (length rows))).
  assert (Hl : length frame = length rows) by (unfold frame; now rewrite map_length, seq_length).
  destruct rows as [|r0 rows0]; [easy|]. set (rows := r0 :: rows0) in *.
  assert (E : exists h, shift1 frame = h :: removelast frame). { unfold shift1. destruct frame as [|h tl]; [discriminate|]. eauto. }
  destruct E as [h E]. rewrite E. f_equal. set (D := @nil R). apply (nth_ext _ _ D D).
  { rewrite !map_length, seq_length. change (S (length (removelast frame)) = length rows). now rewrite removelast_length, Hl. }
  intros t Ht. rewrite map_length in Ht. change (t < S (length (removelast frame)))%nat in Ht. rewrite removelast_length, Hl in Ht.
  assert (Ht' : (t < length rows)%nat) by (simpl in *; lia). rewrite (frame_nth _ _ _ _ _ Ht').
  change D with (map (fun x => n_devs * match x with Some v => v | None => 0 end) []). rewrite map_nth.
  destruct t as [|t].
  - simpl nth. unfold before. simpl firstn. generalize 0%nat as a. clear. induction k as [|k IH]; intros a; [reflexivity|].
    cbn [repeat map seq]. f_equal; [unfold dev; simpl; ring|]. apply (IH (S a)).
  - change (nth (S t) (repeat (Some 0) k :: removelast frame) []) with (nth t (removelast frame) []). rewrite removelast_nth by (rewrite Hl; simpl in *; lia). unfold frame. rewrite frame_nth by lia. unfold stds. rewrite !map_map.
    apply map_ext. intros j. rewrite std_nth by (unfold rho_col; rewrite map_length; lia).
    assert (Eb : firstn (S t) (rho_col j rows) = before (S t) j rows) by (unfold before, rho_col; now rewrite firstn_map).
    rewrite Eb. unfold dev. destruct (Nat.leb _ _); [reflexivity|ring].
Qed.
Lemma rho_empty k n_devs : construct_rho k [] n_devs = Raise IndexError.
Proof. reflexivity. Qed.

(** ** Consequences *)
Lemma w_var_ge0 xs : 0 <= w_var xs.
Proof.
  unfold w_var. destruct (observed xs) as [|p l] eqn:E.
  { unfold total. rewrite E. simpl. unfold Rdiv. rewrite Rmult_0_l. lra. }
  assert (Hne : observed xs <> []) by (rewrite E; discriminate). pose proof (w_pos xs Hne) as Hw.
  assert (Hq : 0 <= q_sum (w_mean xs) xs).
  { apply total_ge0. intros q. apply Rmult_le_pos; [apply Rlt_le, weight_pos|]. apply pow2_ge_0. }
  fold (q_sum (w_mean xs) xs). destruct (gap_spec xs) as [[_ Hg]|[_ Hg]]; unfold gap in Hg.
  - assert (E0 : w_sum xs - w2_sum xs / w_sum xs = 0) by (replace (w2_sum xs) with (w_sum xs * w_sum xs) by lra; field; lra).
    rewrite E0. unfold Rdiv. rewrite Rinv_0, Rmult_0_r. lra.
  - apply Rmult_le_pos; [assumption|]. apply Rlt_le, Rinv_0_lt_compat.
    replace (w_sum xs - w2_sum xs / w_sum xs) with ((w_sum xs * w_sum xs - w2_sum xs) / w_sum xs) by (field; lra).
    apply Rmult_lt_0_compat; [assumption|now apply Rinv_0_lt_compat].
Qed.
Lemma dev_ge0 n_devs xs : 0 <= n_devs -> 0 <= dev n_devs xs.
Proof. intros H. unfold dev. destruct (Nat.leb _ _); [|lra]. apply Rmult_le_pos; [assumption|apply sqrt_pos]. Qed.

(** x -> c x + b on the observed values. *)
Definition affine (c b : R) (xs : list (option R)) := map (option_map (fun v => c * v + b)) xs.
Lemma observed_affine c b xs : observed (affine c b xs) = map (fun p => (fst p, c * snd p + b)) (observed xs).
Proof.
  induction xs as [|x xs IH] using rev_ind; [reflexivity|]. unfold affine in *. rewrite map_app. simpl. rewrite !observed_snoc, map_app, IH, !map_map.
  destruct x; reflexivity.
Qed.
Lemma total_affine g c b xs : total g (affine c b xs) = total (fun p => g (fst p, c * snd p + b)) xs.
Proof. unfold total. rewrite observed_affine, map_map. reflexivity. Qed.
Lemma dev_affine n_devs c b xs : dev n_devs (affine c b xs) = Rabs c * dev n_devs xs.
Proof.
  unfold dev. rewrite observed_affine, map_length. destruct (Nat.leb_spec 2 (length (observed xs))) as [H|H]; [|ring].
  assert (Hne : observed xs <> []) by (destruct (observed xs); [simpl in H; lia|discriminate]). pose proof (w_pos xs Hne) as Hw.
  assert (E1 : w_sum (affine c b xs) = w_sum xs) by (unfold w_sum; now rewrite total_affine).
  assert (E2 : w2_sum (affine c b xs) = w2_sum xs) by (unfold w2_sum; now rewrite total_affine).
  assert (E3 : w_mean (affine c b xs) = c * w_mean xs + b).
  { unfold w_mean. rewrite E1, total_affine. simpl.
    rewrite (total_ext _ (fun p => c * (weight (fst p) * snd p) + b * weight (fst p))) by (intros; ring). rewrite total_add, !total_scal. fold (w_sum xs). field. lra. }
  assert (E4 : w_var (affine c b xs) = c ^ 2 * w_var xs).
  { unfold w_var. rewrite E1, E2, E3, total_affine. cbn [fst snd].
    rewrite (total_ext _ (fun p => c ^ 2 * (weight (fst p) * (snd p - w_mean xs) ^ 2))) by (intros; ring). rewrite total_scal. unfold Rdiv. ring. }
  unfold w_std. rewrite E4, sqrt_mult; [|apply pow2_ge_0|apply w_var_ge0]. replace (c ^ 2) with (Rsqr c) by (unfold Rsqr; ring).
  rewrite sqrt_Rsqr_abs. ring.
Qed.

Lemma rho_total k rows n_devs :
  construct_rho k rows n_devs =
  if rows then Raise IndexError
  else Ok (map (fun t => map (fun j => dev n_devs (before t j rows)) (seq 0 k)) (seq 0 (length rows))).
Proof. destruct rows as [|r rows]; [reflexivity|]. apply rho_formula. discriminate. Qed.
Lemma before_firstn t s j rows : (s <= t)%nat -> before s j rows = before s j (firstn t rows).
Proof. intros H. unfold before. rewrite firstn_firstn. now rewrite PeanoNat.Nat.min_l. Qed.
Lemma rho_inv k rows n_devs out : construct_rho k rows n_devs = Ok out ->
  out = map (fun t => map (fun j => dev n_devs (before t j rows)) (seq 0 k)) (seq 0 (length rows)).
Proof. rewrite rho_total. destruct rows as [|r rows]; [discriminate|]. now intros [= <-]. Qed.
Lemma seq_firstn a t n : (t <= n)%nat -> firstn t (seq a n) = seq a t.
Proof. revert a t; induction n as [|n IH]; intros a t H; [now replace t with 0%nat by lia|]. destruct t as [|t]; [reflexivity|]. simpl. rewrite IH by lia. reflexivity. Qed.
Lemma rho_no_look_ahead k rows rows' n_devs out out' t :
  construct_rho k rows n_devs = Ok out -> construct_rho k rows' n_devs = Ok out' ->
  firstn t rows = firstn t rows' -> (t < length rows)%nat -> (t < length rows')%nat ->
  firstn (S t) out = firstn (S t) out' /\ length (firstn (S t) out) = S t.
Proof.
  intros E E' H Ht Ht'. rewrite (rho_inv _ _ _ _ E), (rho_inv _ _ _ _ E'). rewrite !firstn_map, !seq_firstn by lia. split.
  - apply map_ext_in. intros s Hs. apply in_seq in Hs. apply map_ext. intros j. rewrite (before_firstn t s j rows), (before_firstn t s j rows') by lia. now rewrite H.
  - now rewrite map_length, seq_length.
Qed.
Lemma before_affine c b t j rows : before t j (map (map (option_map (fun v => c * v + b))) rows) = affine c b (before t j rows).
Proof.
  unfold before, affine. rewrite firstn_map, !map_map. apply map_ext. intros r. change None with (option_map (fun v => c * v + b) None) at 1. apply map_nth.
Qed.
Lemma rho_affine k rows n_devs c b out :
  construct_rho k rows n_devs = Ok out ->
  construct_rho k (map (map (option_map (fun v => c * v + b))) rows) n_devs = Ok (map (map (fun v => Rabs c * v)) out) /\
  (0 <= n_devs -> forall row v, In row out -> In v row -> 0 <= v).
Proof.
  intros E. assert (Hne : rows <> []) by (intros ->; discriminate). rewrite (rho_inv _ _ _ _ E). split.
  - rewrite rho_formula by (destruct rows; [easy|discriminate]). f_equal. rewrite !map_map, map_length. apply map_ext. intros t. rewrite map_map. apply map_ext. intros j.
    rewrite before_affine. apply dev_affine.
  - intros Hn row v Hr Hv. apply in_map_iff in Hr. destruct Hr as [t [<- _]]. apply in_map_iff in Hv. destruct Hv as [j [<- _]]. now apply dev_ge0.
Qed.
