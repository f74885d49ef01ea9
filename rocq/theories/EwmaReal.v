(** * The EWMA recursion over the reals: closed form, bounds, traps. *)
From Coq Require Import Reals Lra Psatz List Bool Arith Lia.
From Verif Require Import Spec.
Import ListNotations.
Local Open Scope R_scope.

Lemma rsum_ext n f g : (forall k, (k < n)%nat -> f k = g k) -> rsum n f = rsum n g.
Proof. induction n; simpl; intros H; auto. rewrite IHn, H; auto. Qed.
Lemma rsum_scal n c f : rsum n (fun k => c * f k) = c * rsum n f.
Proof. induction n; simpl; [lra|]. rewrite IHn; lra. Qed.
Lemma rsum_plus n f g : rsum n (fun k => f k + g k) = rsum n f + rsum n g.
Proof. induction n; simpl; [lra|]. rewrite IHn; lra. Qed.
Lemma rsum_minus n f g : rsum n (fun k => f k - g k) = rsum n f - rsum n g.
Proof. induction n; simpl; [lra|]. rewrite IHn; lra. Qed.
Lemma rsum_zero n f : (forall k, (k < n)%nat -> f k = 0) -> rsum n f = 0.
Proof. induction n; simpl; intros H; auto. rewrite IHn, H; auto; lra. Qed.
Lemma rsum_nonneg n f : (forall k, (k < n)%nat -> 0 <= f k) -> 0 <= rsum n f.
Proof. induction n; simpl; intros H; try lra. specialize (IHn ltac:(auto)). specialize (H n ltac:(auto)). lra. Qed.
Lemma rsum_le n f g : (forall k, (k < n)%nat -> f k <= g k) -> rsum n f <= rsum n g.
Proof. induction n; simpl; intros H; try lra. specialize (IHn ltac:(auto)). specialize (H n ltac:(auto)). lra. Qed.
Lemma rsum_nonneg_zero n f : (forall k, (k < n)%nat -> 0 <= f k) -> rsum n f = 0 -> forall k, (k < n)%nat -> f k = 0.
Proof.
  induction n; simpl; intros H Hz k Hk; try lia.
  pose proof (rsum_nonneg n f ltac:(auto)). pose proof (H n ltac:(auto)).
  destruct (Nat.eq_dec k n); [subst; lra|]. apply IHn; auto; try lra; lia.
Qed.
Lemma rsum_pos n f k : (forall k, (k < n)%nat -> 0 <= f k) -> (k < n)%nat -> 0 < f k -> 0 < rsum n f.
Proof.
  intros H Hk Hp. destruct (Rle_lt_or_eq_dec 0 (rsum n f)); auto. apply rsum_nonneg; auto.
  exfalso. symmetry in e. pose proof (rsum_nonneg_zero n f H e k Hk). lra.
Qed.
Lemma rsum_swap m n f : rsum m (fun i => rsum n (fun j => f i j)) = rsum n (fun j => rsum m (fun i => f i j)).
Proof.
  induction m; simpl.
  - symmetry; apply rsum_zero; auto.
  - rewrite IHm, <- rsum_plus. reflexivity.
Qed.
Lemma rsum_single n f i : (i < n)%nat -> (forall k, (k < n)%nat -> k <> i -> f k = 0) -> rsum n f = f i.
Proof.
  induction n; intros Hi H; [lia|]. simpl. destruct (Nat.eq_dec i n).
  - subst. rewrite rsum_zero; [lra|]. intros; apply H; lia.
  - rewrite IHn, (H n); try lia; try lra. intros; apply H; lia.
Qed.
Lemma rsum_const n c : rsum n (fun _ => c) = INR n * c.
Proof. induction n; [simpl; lra|]. rewrite S_INR. simpl. rewrite IHn; lra. Qed.
Lemma rsum_shift n f : rsum (S n) f = f 0%nat + rsum n (fun k => f (S k)).
Proof. induction n; [simpl; lra|]. change (rsum (S (S n)) f) with (rsum (S n) f + f (S n)). rewrite IHn. simpl; lra. Qed.

(** One element of the update over R; [c] is the (already squared) clip level, None = no clipping. *)
Definition rupd (b : R) (mp : nat) (c : option R) (n : nat) (e x : R) : R :=
  match c with
  | Some c => if (mp + 1 <=? n)%nat
              then e + (1 - b) * (Rmin (Rmax x (- c * e)) (c * e) - e) / (1 - b ^ (n + 1))
              else e + (1 - b) * (x - e) / (1 - b ^ (n + 1))
  | None => e + (1 - b) * (x - e) / (1 - b ^ (n + 1))
  end.

Fixpoint rst (b : R) (mp : nat) (c : option R) (u : nat -> R) (k : nat) : R :=
  match k with
  | O => u 0%nat
  | S k' => rupd b mp c k (rst b mp c u k') (u k)
  end.

Lemma rst_ext b mp c u v k : (forall s, (s <= k)%nat -> u s = v s) -> rst b mp c u k = rst b mp c v k.
Proof. induction k; simpl; intros H; [apply H; auto|]. rewrite IHk, (H (S k)); auto. Qed.

Section Decay.
  Variable b : R.
  Hypothesis Hb : 0 < b < 1.

  Lemma pow_lt1 n : b ^ (n + 1) < 1.
  Proof. rewrite Nat.add_1_r. apply pow_lt_1_compat; [lra|lia]. Qed.
  Lemma den_pos n : 0 < 1 - b ^ (n + 1).
  Proof. pose proof (pow_lt1 n); lra. Qed.
  Lemma den_ne n : 1 - b ^ (n + 1) <> 0.
  Proof. pose proof (den_pos n); lra. Qed.

  (** Weight of the newest observation. *)
  Definition wnew n := (1 - b) / (1 - b ^ (n + 1)).
  Lemma wnew_pos n : 0 < wnew n.
  Proof. unfold wnew. apply Rdiv_lt_0_compat; [lra|apply den_pos]. Qed.
  Lemma pow_le_b n : (1 <= n)%nat -> b ^ (n + 1) < b.
  Proof.
    intros Hn. rewrite Nat.add_1_r. simpl.
    assert (b ^ n < 1) by (apply pow_lt_1_compat; [lra|lia]). nra.
  Qed.
  Lemma wnew_lt1 n : (1 <= n)%nat -> wnew n < 1.
  Proof.
    intros Hn. unfold wnew. pose proof (den_pos n). pose proof (pow_le_b n Hn).
    apply (Rmult_lt_reg_r (1 - b ^ (n + 1))); auto. unfold Rdiv. rewrite Rmult_assoc, Rinv_l by lra. lra.
  Qed.

  Lemma rupd_none mp n e x : rupd b mp None n e x = (1 - wnew n) * e + wnew n * x.
  Proof. unfold rupd, wnew. field. apply den_ne. Qed.
  Lemma rupd_early mp c n e x : (n < mp + 1)%nat -> rupd b mp (Some c) n e x = (1 - wnew n) * e + wnew n * x.
  Proof.
    intros H. unfold rupd, wnew. destruct (Nat.leb_spec (mp + 1) n); [lia|]. field. apply den_ne.
  Qed.
  Lemma rupd_clip mp c n e x : (mp + 1 <= n)%nat ->
    rupd b mp (Some c) n e x = (1 - wnew n) * e + wnew n * Rmin (Rmax x (- c * e)) (c * e).
  Proof.
    intros H. unfold rupd, wnew. destruct (Nat.leb_spec (mp + 1) n); [|lia]. field. apply den_ne.
  Qed.

  (** Closed form. *)
  Definition esum (u : nat -> R) k := rsum (S k) (fun s => b ^ (k - s) * u s).
  Lemma esum_S u k : esum u (S k) = b * esum u k + u (S k).
  Proof.
    unfold esum. change (rsum (S (S k)) ?f) with (rsum (S k) f + f (S k)). cbv beta. rewrite Nat.sub_diag.
    rewrite <- rsum_scal, pow_O, Rmult_1_l. f_equal. apply rsum_ext. intros s Hs.
    replace (S k - s)%nat with (S (k - s)) by lia. simpl; ring.
  Qed.
  Lemma etot_eq k : rsum (S k) (fun s => b ^ (k - s)) * (1 - b) = 1 - b ^ (k + 1).
  Proof.
    transitivity (esum (fun _ => 1) k * (1 - b)).
    - unfold esum. f_equal. apply rsum_ext; intros; ring.
    - induction k; [unfold esum; simpl; ring|]. rewrite esum_S. 
      replace ((b * esum (fun _ => 1) k + 1) * (1 - b)) with (b * (esum (fun _ => 1) k * (1 - b)) + (1 - b)) by ring.
      rewrite IHk. simpl. ring.
  Qed.
  Lemma etot_pos k : 0 < rsum (S k) (fun s => b ^ (k - s)).
  Proof.
    apply (rsum_pos _ _ k); [intros; apply Rlt_le, pow_lt; lra|lia|]. rewrite Nat.sub_diag; simpl; lra.
  Qed.
  Lemma etot_val k : rsum (S k) (fun s => b ^ (k - s)) = (1 - b ^ (k + 1)) / (1 - b).
  Proof. rewrite <- etot_eq. field. lra. Qed.

  Lemma wnew_etot k : wnew k = / rsum (S k) (fun s => b ^ (k - s)).
  Proof. rewrite etot_val. unfold wnew. field. split; [lra|apply den_ne]. Qed.

  Lemma ewavg_0 u : ewavg b u 0 = u 0%nat.
  Proof. unfold ewavg; simpl. field. Qed.

  Lemma ewavg_S u k : ewavg b u (S k) = (1 - wnew (S k)) * ewavg b u k + wnew (S k) * u (S k).
  Proof.
    unfold ewavg. fold (esum u k) (esum u (S k)). rewrite esum_S, !etot_val. unfold wnew.
    pose proof (den_pos k); pose proof (den_pos (S k)). simpl in *. field.
    repeat split; try lra.
  Qed.

  Lemma rst_closed mp u k : rst b mp None u k = ewavg b u k.
  Proof.
    induction k; [symmetry; apply (ewavg_0 u)|]. change (rst b mp None u (S k)) with (rupd b mp None (S k) (rst b mp None u k) (u (S k))).
    rewrite rupd_none, IHk, ewavg_S. reflexivity.
  Qed.

  Lemma rst_early mp c u k : (k <= mp)%nat -> rst b mp (Some c) u k = ewavg b u k.
  Proof.
    induction k; intros H; [symmetry; apply (ewavg_0 u)|].
    change (rst b mp (Some c) u (S k)) with (rupd b mp (Some c) (S k) (rst b mp (Some c) u k) (u (S k))).
    rewrite rupd_early, IHk, ewavg_S by lia. reflexivity.
  Qed.

  (** Weights *)
  Lemma ewavg_weights u k : ewavg b u k = rsum (S k) (fun s => eweight b k s * u s).
  Proof.
    unfold ewavg, eweight. set (D := rsum (S k) (fun s => b ^ (k - s))).
    rewrite (rsum_ext _ (fun s => b ^ (k - s) / D * u s) (fun s => / D * (b ^ (k - s) * u s))).
    - rewrite rsum_scal. unfold Rdiv; ring.
    - intros; unfold Rdiv; ring.
  Qed.
  Lemma eweight_pos k s : 0 < eweight b k s.
  Proof. unfold eweight. apply Rdiv_lt_0_compat; [apply pow_lt; lra|apply etot_pos]. Qed.
  Lemma eweight_sum k : rsum (S k) (eweight b k) = 1.
  Proof.
    transitivity (ewavg b (fun _ => 1) k).
    - rewrite ewavg_weights. apply rsum_ext; intros; ring.
    - unfold ewavg. rewrite (rsum_ext _ _ (fun s => b ^ (k - s))) by (intros; ring).
      apply Rinv_r. pose proof (etot_pos k); lra.
  Qed.
  Lemma eweight_age k s d : (s + d <= k)%nat -> eweight b k s = eweight b k (s + d) * b ^ d.
  Proof.
    intros H. unfold eweight. replace (k - s)%nat with (k - (s + d) + d)%nat by lia.
    rewrite pow_add. unfold Rdiv; ring.
  Qed.

  Lemma ewavg_nonneg u k : (forall s, (s <= k)%nat -> 0 <= u s) -> 0 <= ewavg b u k.
  Proof.
    intros H. rewrite ewavg_weights. apply rsum_nonneg. intros s Hs.
    apply Rmult_le_pos; [apply Rlt_le, eweight_pos|apply H; lia].
  Qed.
  Lemma ewavg_zero_iff u k : (forall s, (s <= k)%nat -> 0 <= u s) ->
    (ewavg b u k = 0 <-> forall s, (s <= k)%nat -> u s = 0).
  Proof.
    intros H. rewrite ewavg_weights. split.
    - intros Hz s Hs.
      assert (eweight b k s * u s = 0).
      { apply (rsum_nonneg_zero (S k) (fun s => eweight b k s * u s)); auto; [|lia].
        intros; apply Rmult_le_pos; [apply Rlt_le, eweight_pos|apply H; lia]. }
      pose proof (eweight_pos k s). apply Rmult_integral in H0. destruct H0; lra.
    - intros Hz. apply rsum_zero. intros s Hs. rewrite Hz by lia. ring.
  Qed.

  (** Clipping *)
  Lemma clipv_bounds c e x : 0 <= c -> 0 <= e -> 0 <= x -> 0 <= Rmin (Rmax x (- c * e)) (c * e) <= c * e.
  Proof.
    intros Hc He Hx. assert (0 <= c * e) by (apply Rmult_le_pos; auto).
    split; [|apply Rmin_r]. apply Rmin_glb; auto. apply Rle_trans with x; auto. apply Rmax_l.
  Qed.
  Lemma clipv_id c e x : 0 <= c -> 0 <= e -> 0 <= x -> x <= c * e -> Rmin (Rmax x (- c * e)) (c * e) = x.
  Proof.
    intros Hc He Hx Hxe. assert (0 <= c * e) by (apply Rmult_le_pos; auto).
    rewrite Rmax_left by lra. apply Rmin_left; auto.
  Qed.

  Definition okc (c : option R) : Prop := match c with Some c => 0 < c | None => True end.

  Lemma rupd_nonneg mp c n e x : okc c -> (1 <= n)%nat -> 0 <= e -> 0 <= x -> 
    (1 - wnew n) * e <= rupd b mp c n e x.
  Proof.
    intros Hc Hn He Hx. pose proof (wnew_pos n). pose proof (wnew_lt1 n Hn).
    destruct c as [c|].
    - simpl in Hc. destruct (le_lt_dec (mp + 1) n).
      + rewrite rupd_clip by auto. pose proof (clipv_bounds c e x ltac:(lra) He Hx). nra.
      + rewrite rupd_early by auto. nra.
    - rewrite rupd_none. nra.
  Qed.

  Lemma rst_nonneg mp c u k : okc c -> (forall s, (s <= k)%nat -> 0 <= u s) -> 0 <= rst b mp c u k.
  Proof.
    intros Hc. induction k; intros H; [apply H; auto|].
    specialize (IHk ltac:(auto)).
    change (rst b mp c u (S k)) with (rupd b mp c (S k) (rst b mp c u k) (u (S k))).
    pose proof (rupd_nonneg mp c (S k) _ _ Hc ltac:(lia) IHk (H (S k) ltac:(lia))).
    pose proof (wnew_lt1 (S k) ltac:(lia)). nra.
  Qed.

  (** Once positive, positive for ever. *)
  Lemma rst_pos_stays mp c u k d : okc c -> (forall s, 0 <= u s) ->
    0 < rst b mp c u k -> 0 < rst b mp c u (k + d).
  Proof.
    intros Hc Hu H. induction d; [rewrite Nat.add_0_r; auto|].
    rewrite Nat.add_succ_r.
    change (rst b mp c u (S (k + d))) with (rupd b mp c (S (k + d)) (rst b mp c u (k + d)) (u (S (k + d)))).
    pose proof (rupd_nonneg mp c (S (k + d)) _ _ Hc ltac:(lia) (Rlt_le _ _ IHd) (Hu (S (k + d))%nat)).
    pose proof (wnew_lt1 (S (k + d)) ltac:(lia)). nra.
  Qed.

  (** The zero trap. *)
  Lemma rst_trap mp c u k : 0 < c -> (forall s, (s <= mp)%nat -> u s = 0) -> (forall s, 0 <= u s) ->
    rst b mp (Some c) u k = 0.
  Proof.
    intros Hc Hz Hu. induction k; [apply Hz; lia|].
    change (rst b mp (Some c) u (S k)) with (rupd b mp (Some c) (S k) (rst b mp (Some c) u k) (u (S k))).
    rewrite IHk. destruct (le_lt_dec (mp + 1) (S k)).
    - rewrite rupd_clip by auto. rewrite !Rmult_0_r. rewrite Rmax_left by auto.
      rewrite Rmin_right by auto. ring.
    - rewrite rupd_early by auto. rewrite Hz by lia. ring.
  Qed.

  (** Zero exactly when all observations so far are zero (no clipping). *)
  Lemma rst_zero_none mp u k : (forall s, 0 <= u s) ->
    (rst b mp None u k = 0 <-> forall s, (s <= k)%nat -> u s = 0).
  Proof. intros H. rewrite rst_closed. apply ewavg_zero_iff; auto. Qed.

  (** Scaling / bounds for one winsorised step. *)
  Lemma rst_step_bounds mp c u k : 0 < c -> (forall s, 0 <= u s) -> (mp <= k)%nat ->
    let v := rst b mp (Some c) u k in let v' := rst b mp (Some c) u (S k) in
    (1 - wnew (S k)) * v <= v' <= (1 + wnew (S k) * (c - 1)) * v /\
    (u (S k) <= c * v -> v' = (1 - wnew (S k)) * v + wnew (S k) * u (S k)).
  Proof.
    intros Hc Hu Hk v v'. assert (Hv : 0 <= v) by (apply rst_nonneg; simpl; auto).
    pose proof (wnew_pos (S k)). pose proof (wnew_lt1 (S k) ltac:(lia)).
    assert (E : v' = (1 - wnew (S k)) * v + wnew (S k) * Rmin (Rmax (u (S k)) (- c * v)) (c * v)).
    { unfold v'. change (rst b mp (Some c) u (S k)) with (rupd b mp (Some c) (S k) v (u (S k))).
      apply rupd_clip; lia. }
    pose proof (clipv_bounds c v (u (S k)) ltac:(lra) Hv (Hu _)).
    split; [rewrite E; nra|]. intros Hx. rewrite E, clipv_id; auto; lra.
  Qed.
End Decay.

Lemma decay_bounds h : 0 < h -> 0 < decay h < 1.
Proof.
  intros Hh. unfold decay, Rpower. split; [apply exp_pos|].
  rewrite <- exp_0. apply exp_increasing.
  assert (0 < ln 2) by (rewrite <- ln_1; apply ln_increasing; lra).
  assert (0 < / h) by (apply Rinv_0_lt_compat; auto). nra.
Qed.

Lemma decay_pow h d : 0 < h -> decay h ^ d = Rpower 2 (- (INR d / h)).
Proof.
  intros Hh. unfold decay. rewrite <- Rpower_pow by apply exp_pos. rewrite Rpower_mult.
  f_equal. unfold Rdiv; ring.
Qed.
