(** * Weighted averages over a history and over its recent part. *)
From Coq Require Import String Reals Lra Psatz List Bool ZArith Arith Lia.
From Verif Require Import Num Py Ewma Spec SpecEwma EwmaReal EwmaProps3 RoundLip SpecForget.
Local Open Scope R_scope.

Lemma ew_apart b u v k m K : 0 < b < 1 -> (forall i j, (i <= k)%nat -> (j <= m)%nat -> Rabs (u i - v j) <= K) -> Rabs (ewavg b u k - ewavg b v m) <= K.
Proof.
  intros Hb H. rewrite <- (ewavg_const b (ewavg b u k) m Hb). apply ewavg_dist; [exact Hb|]. intros j Hj. rewrite <- (ewavg_const b (v j) k Hb).
  apply ewavg_dist; [exact Hb|]. intros i Hi. apply H; assumption.
Qed.
Lemma esum_drop b u d m : rsum (S (d + m)) (fun s => b ^ (d + m - s) * u s) = b ^ (m + 1) * rsum d (fun s => b ^ (d - 1 - s) * u s) + rsum (S m) (fun s => b ^ (m - s) * u (d + s)%nat).
Proof.
  induction m as [|m IH].
  - rewrite Nat.add_0_r. cbn [rsum]. rewrite !Nat.sub_diag, Nat.add_0_r. simpl. rewrite <- rsum_scal. rewrite Rplus_0_l. f_equal. apply rsum_ext. intros s Hs. replace (d - s)%nat with (S (d - 1 - s)) by lia. simpl. ring.
  - rewrite (Nat.add_succ_r d m). cbn [rsum] in IH |- *. rewrite !Nat.sub_diag. 
    assert (E1 : rsum (d + m) (fun s => b ^ (S (d + m) - s) * u s) + b ^ (S (d + m) - (d + m)) * u (d + m)%nat = b * (rsum (d + m) (fun s => b ^ (d + m - s) * u s) + b ^ (d + m - (d + m)) * u (d + m)%nat)).
    { rewrite Rmult_plus_distr_l, <- rsum_scal. f_equal; [apply rsum_ext; intros s Hs; replace (S (d + m) - s)%nat with (S (d + m - s)) by lia; simpl; ring|]. replace (S (d + m) - (d + m))%nat with 1%nat by lia. rewrite Nat.sub_diag. simpl; ring. }
    assert (E2 : rsum m (fun s => b ^ (S m - s) * u (d + s)%nat) + b ^ (S m - m) * u (d + m)%nat = b * (rsum m (fun s => b ^ (m - s) * u (d + s)%nat) + b ^ (m - m) * u (d + m)%nat)).
    { rewrite Rmult_plus_distr_l, <- rsum_scal. f_equal; [apply rsum_ext; intros s Hs; replace (S m - s)%nat with (S (m - s)) by lia; simpl; ring|]. replace (S m - m)%nat with 1%nat by lia. rewrite Nat.sub_diag. simpl; ring. }
    rewrite E1, E2, IH. rewrite (Nat.add_succ_r d m). simpl. ring.
Qed.
Lemma ewavg_drop b u d m K : 0 < b < 1 -> (forall i j, (i <= d + m)%nat -> (j <= d + m)%nat -> Rabs (u i - u j) <= K) ->
  Rabs (ewavg b u (d + m) - ewavg b (fun s => u (d + s)%nat) m) <= b ^ (m + 1) * K.
Proof.
  intros Hb H. assert (K0 : 0 <= K) by (eapply Rle_trans; [apply Rabs_pos|apply (H 0%nat 0%nat); lia]). assert (PM : 0 < b ^ (m + 1)) by (apply pow_lt; lra).
  destruct d as [|e].
  - change (fun s => u (0 + s)%nat) with (fun s => u s). rewrite Nat.add_0_l. replace (ewavg b u m - ewavg b (fun s => u s) m) with 0 by (unfold ewavg; ring). rewrite Rabs_R0. nra.
  - set (t := fun s => u (S e + s)%nat). assert (A := ew_apart b u t e m K Hb ltac:(intros i j Hi Hj; apply H; lia)).
    unfold ewavg in A |- *. assert (D1 := etot_pos b Hb e). assert (D2 := etot_pos b Hb m). assert (D3 := etot_pos b Hb (S e + m)).
    assert (D4 : rsum (S e) (fun s => b ^ (e - s)) <= rsum (S (S e + m)) (fun s => b ^ (S e + m - s))).
    { rewrite !(etot_val b Hb). apply Rmult_le_compat_r; [apply Rlt_le, Rinv_0_lt_compat; lra|]. assert (Q : b ^ (S e + m + 1) <= b ^ (e + 1)).
      { replace (S e + m + 1)%nat with (e + 1 + (m + 1))%nat by lia. rewrite pow_add. assert (b ^ (m + 1) <= 1) by (rewrite <- (pow1 (m + 1)); apply pow_incr; lra). assert (0 < b ^ (e + 1)) by (apply pow_lt; lra). nra. } lra. }
    assert (E1 := esum_drop b u (S e) m). replace (S e - 1)%nat with e in E1 by lia. change (rsum (S m) (fun s => b ^ (m - s) * u (S e + s)%nat)) with (rsum (S m) (fun s => b ^ (m - s) * t s)) in E1.
    assert (E2 : rsum (S (S e + m)) (fun s => b ^ (S e + m - s)) = b ^ (m + 1) * rsum (S e) (fun s => b ^ (e - s)) + rsum (S m) (fun s => b ^ (m - s))).
    { assert (Z := esum_drop b (fun _ => 1) (S e) m). replace (S e - 1)%nat with e in Z by lia.
      transitivity (rsum (S (S e + m)) (fun s => b ^ (S e + m - s) * 1)); [apply rsum_ext; intros; ring|]. rewrite Z. f_equal; [f_equal|]; apply rsum_ext; intros; ring. }
    set (De := rsum (S e) (fun s => b ^ (e - s))) in *. set (Dt := rsum (S m) (fun s => b ^ (m - s))) in *. set (D := rsum (S (S e + m)) (fun s => b ^ (S e + m - s))) in *.
    set (Ne := rsum (S e) (fun s => b ^ (e - s) * u s)) in *. set (Nt := rsum (S m) (fun s => b ^ (m - s) * t s)) in *. rewrite E1.
    replace ((b ^ (m + 1) * Ne + Nt) / D - Nt / Dt) with (b ^ (m + 1) * (De / D) * (Ne / De - Nt / Dt)).
    2: { apply Rmult_eq_reg_r with D; [|lra]. replace (b ^ (m + 1) * (De / D) * (Ne / De - Nt / Dt) * D) with (b ^ (m + 1) * De * (Ne / De - Nt / Dt)) by (field; lra).
         replace (((b ^ (m + 1) * Ne + Nt) / D - Nt / Dt) * D) with (b ^ (m + 1) * Ne + Nt - Nt / Dt * D) by (field; lra). rewrite E2. field; lra. }
    rewrite Rabs_mult. assert (F : 0 <= De / D <= 1) by (split; [apply Rlt_le, Rdiv_lt_0_compat; lra|apply Rmult_le_reg_r with D; [lra|]; unfold Rdiv; rewrite Rmult_assoc, Rinv_l; lra]).
    rewrite Rabs_right by (apply Rle_ge, Rmult_le_pos; lra). apply Rmult_le_compat; [apply Rmult_le_pos; lra|apply Rabs_pos| |exact A]. nra.
Qed.
Lemma ewavg_tail b u v k C r : 0 < b < 1 -> b <= r -> 0 <= C -> (forall s, (s <= k)%nat -> Rabs (u s - v s) <= C * r ^ s) -> Rabs (ewavg b u k - ewavg b v k) <= C * INR (S k) * r ^ k.
Proof.
  intros Hb Hr HC. induction k as [|k IH]; intros H.
  - rewrite !(ewavg_0 b). assert (A := H 0%nat ltac:(lia)). simpl in A |- *. lra.
  - rewrite !(ewavg_S b Hb). assert (W := wnew_pos b Hb (S k)). assert (W1 : 1 - b <= wnew b (S k)).
    { unfold wnew. assert (D := den_pos b Hb (S k)). assert (0 < b ^ (S k + 1)) by (apply pow_lt; lra).
      apply Rmult_le_reg_r with (1 - b ^ (S k + 1)); [exact D|]. unfold Rdiv. rewrite Rmult_assoc, Rinv_l by lra. nra. }
    assert (W2 : wnew b (S k) <= 1) by (rewrite wnew_gs by assumption; rewrite <- Rinv_1; apply Rinv_le_contravar; [lra|]; apply gs_pos; lra).
    match goal with |- Rabs ?e <= _ => replace e with ((1 - wnew b (S k)) * (ewavg b u k - ewavg b v k) + wnew b (S k) * (u (S k) - v (S k))) by ring end.
    eapply Rle_trans; [apply Rabs_triang|]. rewrite !Rabs_mult. rewrite (Rabs_right (1 - _)) by lra. rewrite (Rabs_right (wnew _ _)) by lra.
    assert (A := IH ltac:(intros; apply H; lia)). assert (B := H (S k) ltac:(lia)). rewrite (S_INR (S k)).
    assert (P : 0 <= r ^ k) by (apply pow_le; lra). assert (I0 : 0 <= INR (S k)) by apply pos_INR. simpl pow in *.
    assert (A2 : (1 - wnew b (S k)) * Rabs (ewavg b u k - ewavg b v k) <= r * (C * INR (S k) * r ^ k)) by (apply Rmult_le_compat; [lra|apply Rabs_pos|lra|exact A]).
    assert (B2 : wnew b (S k) * Rabs (u (S k) - v (S k)) <= 1 * (C * (r * r ^ k))) by (apply Rmult_le_compat; [lra|apply Rabs_pos|lra|exact B]). lra.
Qed.
