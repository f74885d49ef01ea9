(** * How the weighted average depends on the decay factor. *)
From Coq Require Import Reals Lra Psatz List Arith Lia.
From Verif Require Import Spec EwmaReal RoundReal.
Local Open Scope R_scope.

Definition gs (x : R) (n : nat) : R := rsum (S n) (fun s => x ^ (n - s)).
Lemma gs_S x n : gs x (S n) = 1 + x * gs x n.
Proof.
  unfold gs. change (rsum (S (S n)) ?f) with (rsum (S n) f + f (S n)). cbv beta. rewrite Nat.sub_diag. rewrite <- rsum_scal, Rplus_comm, pow_O. f_equal.
  apply rsum_ext. intros s Hs. replace (S n - s)%nat with (S (n - s)) by lia. reflexivity.
Qed.
Lemma gs_0 x : gs x 0 = 1. Proof. unfold gs. simpl. ring. Qed.
Lemma gs_pos x n : 0 <= x -> 1 <= gs x n.
Proof. intros Hx. induction n; [rewrite gs_0; lra|]. rewrite gs_S. nra. Qed.
Lemma gs_lip x y n : 0 <= y <= x -> 0 <= gs x n - gs y n <= (x - y) * (gs x n * gs y n).
Proof.
  intros H. induction n as [|n IH]; [rewrite !gs_0; lra|].
  assert (Hx := gs_pos x n ltac:(lra)). assert (Hy := gs_pos y n ltac:(lra)). assert (Gx := gs_S x n). assert (Gy := gs_S y n).
  assert (Hy' : gs y n <= gs y (S n)).
  { clear -H. assert (G : forall n, gs y n <= gs y (S n)); [|apply G]. induction n0; [rewrite gs_S, gs_0; lra|]. rewrite (gs_S y n0), (gs_S y (S n0)). nra. }
  assert (E : gs x (S n) - gs y (S n) = x * (gs x n - gs y n) + (x - y) * gs y n) by (rewrite Gx, Gy; ring).
  rewrite E. split; [nra|].
  apply Rle_trans with ((x - y) * (gs x (S n) * gs y n)).
  - rewrite Gx. destruct IH as [I1 I2]. assert (x * (gs x n - gs y n) <= x * ((x - y) * (gs x n * gs y n))) by (apply Rmult_le_compat_l; lra).
    replace ((x - y) * ((1 + x * gs x n) * gs y n)) with (x * ((x - y) * (gs x n * gs y n)) + (x - y) * gs y n) by ring. lra.
  - apply Rmult_le_compat_l; [lra|]. apply Rmult_le_compat_l; [rewrite Gx; nra|exact Hy'].
Qed.
Lemma wnew_gs x n : 0 < x < 1 -> wnew x n = / gs x n.
Proof. intros H. rewrite (wnew_etot x H). reflexivity. Qed.
(** The gain is 1-Lipschitz in the decay factor. *)
Lemma wnew_lip x y n : 0 < x < 1 -> 0 < y < 1 -> Rabs (wnew x n - wnew y n) <= Rabs (x - y).
Proof.
  assert (G : forall x y, 0 < x < 1 -> 0 < y < 1 -> y <= x -> Rabs (wnew x n - wnew y n) <= Rabs (x - y)).
  { clear. intros x y Hx Hy H. rewrite !wnew_gs by assumption. destruct (gs_lip x y n ltac:(lra)) as [A B].
    assert (Px := gs_pos x n ltac:(lra)). assert (Py := gs_pos y n ltac:(lra)).
    replace (/ gs x n - / gs y n) with (- ((gs x n - gs y n) * / (gs x n * gs y n))) by (field; lra).
    assert (0 < gs x n * gs y n) by nra. assert (0 < / (gs x n * gs y n)) by (apply Rinv_0_lt_compat; assumption).
    rewrite Rabs_Ropp, (Rabs_right (x - y)) by lra. rewrite Rabs_right by nra.
    apply Rmult_le_reg_r with (gs x n * gs y n); [assumption|]. rewrite Rmult_assoc, Rinv_l by lra. lra. }
  intros Hx Hy. destruct (Rle_dec y x); [apply G; auto|]. rewrite <- Rabs_Ropp, <- (Rabs_Ropp (x - y)).
  replace (- (wnew x n - wnew y n)) with (wnew y n - wnew x n) by ring. replace (- (x - y)) with (y - x) by ring. apply G; auto; lra.
Qed.
Lemma ewavg_abs b u k M : 0 < b < 1 -> (forall s, (s <= k)%nat -> Rabs (u s) <= M) -> Rabs (ewavg b u k) <= M.
Proof.
  intros Hb. induction k as [|k IH]; intros H; [rewrite (ewavg_0 b); apply H; lia|].
  rewrite (ewavg_S b Hb). assert (W := wnew_pos b Hb (S k)). assert (W1 : wnew b (S k) <= 1).
  { rewrite wnew_gs by assumption. rewrite <- Rinv_1. apply Rinv_le_contravar; [lra|]. apply gs_pos; lra. }
  assert (T1 : Rabs ((1 - wnew b (S k)) * ewavg b u k) <= (1 - wnew b (S k)) * M) by (apply abs_mul_le; [rewrite Rabs_right; lra|apply IH; intros; apply H; lia]).
  assert (T2 : Rabs (wnew b (S k) * u (S k)) <= wnew b (S k) * M) by (apply abs_mul_le; [rewrite Rabs_right; lra|apply H; lia]).
  eapply Rle_trans; [apply (abs_plus _ _ _ _ T1 T2)|]. lra.
Qed.
Lemma ewavg_lip a b u k M : 0 < a < 1 -> 0 < b < 1 -> (forall s, (s <= k)%nat -> Rabs (u s) <= M) ->
  Rabs (ewavg a u k - ewavg b u k) <= Rabs (a - b) * (2 * M) / (1 - a).
Proof.
  intros Ha Hb H. set (d := Rabs (a - b) * (2 * M) / (1 - a)).
  assert (M0 : 0 <= M) by (eapply Rle_trans; [apply Rabs_pos|apply (H 0%nat); lia]).
  assert (Hd : d * (1 - a) = Rabs (a - b) * (2 * M)) by (unfold d; field; lra).
  assert (Hd0 : 0 <= d) by (unfold d; apply Rmult_le_pos; [apply Rmult_le_pos; [apply Rabs_pos|lra]|apply Rlt_le, Rinv_0_lt_compat; lra]).
  clearbody d. induction k as [|k IH]; [rewrite (ewavg_0 a), (ewavg_0 b), Rminus_diag_eq, Rabs_R0 by reflexivity; lra|].
  rewrite (ewavg_S a Ha), (ewavg_S b Hb). assert (W := wnew_pos a Ha (S k)). assert (W1 : wnew a (S k) <= 1).
  { rewrite wnew_gs by assumption. rewrite <- Rinv_1. apply Rinv_le_contravar; [lra|]. apply gs_pos; lra. }
  assert (W2 : 1 - a <= wnew a (S k)).
  { unfold wnew. assert (D := den_pos a Ha (S k)). assert (0 < a ^ (S k + 1)) by (apply pow_lt; lra).
    apply Rmult_le_reg_r with (1 - a ^ (S k + 1)); [exact D|]. unfold Rdiv. rewrite Rmult_assoc, Rinv_l by lra. nra. }
  match goal with |- Rabs ?e <= _ => replace e with ((1 - wnew a (S k)) * (ewavg a u k - ewavg b u k) + (wnew a (S k) - wnew b (S k)) * (u (S k) - ewavg b u k)) by ring end.
  assert (T1 : Rabs ((1 - wnew a (S k)) * (ewavg a u k - ewavg b u k)) <= (1 - wnew a (S k)) * d)
    by (apply abs_mul_le; [rewrite Rabs_right; lra|apply IH; intros; apply H; lia]).
  assert (T2 : Rabs ((wnew a (S k) - wnew b (S k)) * (u (S k) - ewavg b u k)) <= Rabs (a - b) * (2 * M)).
  { apply abs_mul_le; [apply wnew_lip; assumption|]. unfold Rminus. replace (2 * M) with (M + M) by ring. apply abs_plus; [apply H; lia|].
    rewrite Rabs_Ropp. apply ewavg_abs; [assumption|intros; apply H; lia]. }
  eapply Rle_trans; [apply (abs_plus _ _ _ _ T1 T2)|]. nra.
Qed.
Lemma ewavg_dist b u v k e : 0 < b < 1 -> (forall s, (s <= k)%nat -> Rabs (u s - v s) <= e) -> Rabs (ewavg b u k - ewavg b v k) <= e.
Proof.
  intros Hb H. rewrite !(ewavg_weights b). replace (rsum (S k) (fun s => eweight b k s * u s) - rsum (S k) (fun s => eweight b k s * v s)) with (ewavg b (fun s => u s - v s) k).
  - apply ewavg_abs; auto.
  - rewrite (ewavg_weights b). assert (G : forall n, rsum n (fun s => eweight b k s * (u s - v s)) = rsum n (fun s => eweight b k s * u s) - rsum n (fun s => eweight b k s * v s)); [|apply G]. induction n; simpl; [ring|]. rewrite IHn. ring.
Qed.
