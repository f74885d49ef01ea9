(** * scale_cov in binary64: the diagonal of a yielded covariance is the squared volatility. *)
From Coq Require Import String ZArith Reals Lra Psatz Lia List Bool Arith.
From Flocq Require Import Core Relative BinarySingleNaN.
From Verif Require Import Num Py ListFacts Ewma EwmaTot EwmaPrefix EwmaEquiv EwmaTab Spec SpecEwma EwmaReal EwmaProps EwmaProps5
  Ieee SpecRound RoundStep RoundReal RoundRun RoundDecay RoundFrame RoundSign RoundVol.
Import ListNotations.
Local Open Scope R_scope.

(** Relative error in the normal range. *)
Lemma rd_rel x : pw (-1022) <= Rabs x -> exists e, Rabs e <= uu /\ rd x = x * (1 + e).
Proof.
  intros H. destruct (relative_error_N_FLT_ex radix2 (-1074) 53 eq_refl (fun x => negb (Z.even x)) x H) as (e & He & E).
  exists e. split; [|exact E]. eapply Rle_trans; [exact He|]. unfold uu. change (/ 2) with (pw (-1)). rewrite <- bpow_plus. apply Rle_refl.
Qed.
Lemma near1 p e k : Rabs (p - 1) <= k -> k <= / 1024 -> Rabs e <= uu -> Rabs (p * (1 + e) - 1) <= k + uu + uu * / 1024.
Proof.
  intros Hp Hk He. replace (p * (1 + e) - 1) with ((p - 1) + e * (1 + (p - 1))) by ring. pose proof uu_pos.
  assert (B : Rabs (1 + (p - 1)) <= 1 + / 1024) by (eapply Rle_trans; [apply Rabs_triang|]; rewrite Rabs_R1; lra).
  eapply Rle_trans; [apply (abs_plus _ _ _ _ Hp (abs_mul_le _ _ _ _ He B))|]. lra.
Qed.
Lemma inv1 e : Rabs e <= uu -> 1 + e <> 0 /\ exists g, / (1 + e) = 1 + g /\ Rabs g <= uu + uu * / 512.
Proof.
  intros He. destruct uu_1 as [U _]. pose proof uu_pos as U0. assert (G := Rle_abs e). assert (G2 := Rle_abs (- e)). rewrite Rabs_Ropp in G2.
  split; [lra|]. exists (- e / (1 + e)). split; [field; lra|]. unfold Rdiv. rewrite Rabs_mult, Rabs_Ropp, Rabs_inv.
  rewrite (Rabs_right (1 + e)) by lra. apply Rmult_le_reg_r with (1 + e); [lra|]. rewrite Rmult_assoc, Rinv_l by lra.
  assert (uu * e >= - (uu * uu)) by nra. nra.
Qed.

Lemma fpos_range (c : b64) : isnum c -> 0 < fval c -> pw (-1074) <= fval c < pw 1024.
Proof.
  intros N P. split.
  - destruct (rd_grid (fval c)) as [k Ek]. unfold fval in *. rewrite rd_val in Ek. rewrite Ek in *. pose proof eta_pos as E0. unfold eta in *.
    assert (0 < IZR k) by (apply Rmult_lt_reg_r with (pw (-1074)); lra). apply lt_IZR in H. assert (1 <= IZR k) by (apply (IZR_le 1); lia).
    rewrite <- (Rmult_1_l (pw (-1074))) at 1. apply Rmult_le_compat_r; lra.
  - generalize (abs_B2R_lt_emax 53 1024 c). unfold fval in *. rewrite Rabs_right by lra. auto.
Qed.
Lemma pw2 a : pw a = pw (a - 1) * 2.
Proof. change 2 with (pw 1). rewrite <- bpow_plus. f_equal. lia. Qed.
Lemma sqrt_range c : pw (-1074) <= c < pw 1024 -> pw (-537) <= sqrt c <= pw 512.
Proof.
  intros H. split.
  - replace (pw (-537)) with (sqrt (pw (-537) * pw (-537))) by (apply sqrt_square; apply bpow_ge_0). apply sqrt_le_1_alt. rewrite <- bpow_plus. apply H.
  - replace (pw 512) with (sqrt (pw 512 * pw 512)) by (apply sqrt_square; apply bpow_ge_0). apply sqrt_le_1_alt. rewrite <- bpow_plus. left. apply H.
Qed.

Definition finv (c : b64) : b64 := if Beqb c f0 then B754_nan else fdiv f1 (fsqrt c).
Definition fcorr (c : b64) : b64 := fmul (fmul (finv c) c) (finv c).
Lemma finv_val c : isnum c -> 0 < fval c -> isnum (finv c) /\ exists q, fval (finv c) = / sqrt (fval c) * q /\ Rabs (q - 1) <= 3 * uu.
Proof.
  intros N P. destruct uu_1 as [U _]. pose proof uu_pos as U0.
  assert (E0 : Beqb c f0 = false) by (generalize (Beqb_correct 53 1024 c f0 N eq_refl); intros ->; apply Req_bool_false; change (B2R f0) with 0; fold (fval c); lra).
  unfold finv. rewrite E0. assert (RC := fpos_range c N P). set (C := fval c) in *. assert (RS := sqrt_range C RC).
  set (r := sqrt C) in *. assert (rr : r * r = C) by (apply sqrt_sqrt; lra). assert (P537 : 0 < pw (-537)) by apply bpow_gt_0.
  assert (R0 : 0 < r) by lra.
  destruct (fsqrt_val c N (Rlt_le _ _ P)) as [Ns Vs]. fold C in Vs. fold r in Vs.
  destruct (rd_rel r) as (e1 & He1 & Es). { rewrite Rabs_right by lra. eapply Rle_trans; [|apply RS]. apply bpow_le. lia. }
  rewrite Es in Vs. destruct (inv1 e1 He1) as (N1 & g & Eg & Hg).
  assert (G1 := Rle_abs e1). assert (G2 := Rle_abs (- e1)). rewrite Rabs_Ropp in G2.
  assert (S0 : 0 < fval (fsqrt c)) by (rewrite Vs; nra).
  assert (Gg := Rle_abs g). assert (Gg2 := Rle_abs (- g)). rewrite Rabs_Ropp in Gg2.
  assert (I0 : pw (-512) <= / r <= pw 537).
  { split; [change (-512)%Z with (- (512))%Z|change 537%Z with (- - (537))%Z]; rewrite bpow_opp; (apply Rinv_le_contravar; [first [lra|apply bpow_gt_0]|first [lra|apply RS]]). }
  assert (P512 : 0 < pw (-512)) by apply bpow_gt_0.
  assert (X1 : 1 / fval (fsqrt c) = / r * (1 + g)) by (rewrite Vs, <- Eg; field; lra).
  assert (H512 : pw (-1022) <= pw (-512) * / 4). { change (/ 4) with (pw (-2)). rewrite <- bpow_plus. apply bpow_le. lia. }
  assert (B537 : pw 537 * 4 <= pw 1020). { change 4 with (pw 2). rewrite <- bpow_plus. apply bpow_le. lia. }
  assert (X1s : / r * / 2 <= / r * (1 + g) <= / r * 2) by (split; apply Rmult_le_compat_l; lra).
  destruct (fdiv_val f1 (fsqrt c) f1_num ltac:(lra)) as [Ni Vi]. { rewrite f1_val, X1, Rabs_right by lra. lra. }
  rewrite f1_val, X1 in Vi. destruct (rd_rel (/ r * (1 + g))) as (e2 & He2 & Ei). { rewrite Rabs_right by lra. lra. }
  rewrite Ei in Vi. set (iv := fdiv f1 (fsqrt c)) in *.
  assert (G3 := Rle_abs e2). assert (G4 := Rle_abs (- e2)). rewrite Rabs_Ropp in G4.
  set (q1 := (1 + g) * (1 + e2)). assert (Q1 : Rabs (q1 - 1) <= 3 * uu).
  { unfold q1. assert (A := near1 (1 + g) e2 (uu + uu * / 512)). eapply Rle_trans; [apply A; [replace (1 + g - 1) with g by ring; exact Hg|lra|exact He2]|lra]. }
  assert (Vi' : fval iv = / r * q1) by (rewrite Vi; unfold q1; ring).
  split; [exact Ni|]. exists q1. split; [exact Vi'|exact Q1].
Qed.
Lemma fcorr_pos c : isnum c -> 0 < fval c -> isnum (fcorr c) /\ Rabs (fval (fcorr c) - 1) <= 10 * uu.
Proof.
  intros N P. destruct uu_1 as [U _]. pose proof uu_pos as U0.
  assert (E0 : Beqb c f0 = false) by (generalize (Beqb_correct 53 1024 c f0 N eq_refl); intros ->; apply Req_bool_false; change (B2R f0) with 0; fold (fval c); lra).
  unfold fcorr, finv. rewrite E0. assert (RC := fpos_range c N P). set (C := fval c) in *. assert (RS := sqrt_range C RC).
  set (r := sqrt C) in *. assert (rr : r * r = C) by (apply sqrt_sqrt; lra). assert (P537 : 0 < pw (-537)) by apply bpow_gt_0.
  assert (R0 : 0 < r) by lra.
  destruct (fsqrt_val c N (Rlt_le _ _ P)) as [Ns Vs]. fold C in Vs. fold r in Vs.
  destruct (rd_rel r) as (e1 & He1 & Es). { rewrite Rabs_right by lra. eapply Rle_trans; [|apply RS]. apply bpow_le. lia. }
  rewrite Es in Vs. destruct (inv1 e1 He1) as (N1 & g & Eg & Hg).
  assert (G1 := Rle_abs e1). assert (G2 := Rle_abs (- e1)). rewrite Rabs_Ropp in G2.
  assert (S0 : 0 < fval (fsqrt c)) by (rewrite Vs; nra).
  assert (Gg := Rle_abs g). assert (Gg2 := Rle_abs (- g)). rewrite Rabs_Ropp in Gg2.
  assert (I0 : pw (-512) <= / r <= pw 537).
  { split; [change (-512)%Z with (- (512))%Z|change 537%Z with (- - (537))%Z]; rewrite bpow_opp; (apply Rinv_le_contravar; [first [lra|apply bpow_gt_0]|first [lra|apply RS]]). }
  assert (P512 : 0 < pw (-512)) by apply bpow_gt_0.
  assert (X1 : 1 / fval (fsqrt c) = / r * (1 + g)) by (rewrite Vs, <- Eg; field; lra).
  assert (H512 : pw (-1022) <= pw (-512) * / 4). { change (/ 4) with (pw (-2)). rewrite <- bpow_plus. apply bpow_le. lia. }
  assert (B537 : pw 537 * 4 <= pw 1020). { change 4 with (pw 2). rewrite <- bpow_plus. apply bpow_le. lia. }
  assert (X1s : / r * / 2 <= / r * (1 + g) <= / r * 2) by (split; apply Rmult_le_compat_l; lra).
  destruct (fdiv_val f1 (fsqrt c) f1_num ltac:(lra)) as [Ni Vi]. { rewrite f1_val, X1, Rabs_right by lra. lra. }
  rewrite f1_val, X1 in Vi. destruct (rd_rel (/ r * (1 + g))) as (e2 & He2 & Ei). { rewrite Rabs_right by lra. lra. }
  rewrite Ei in Vi. set (iv := fdiv f1 (fsqrt c)) in *.
  assert (G3 := Rle_abs e2). assert (G4 := Rle_abs (- e2)). rewrite Rabs_Ropp in G4.
  set (q1 := (1 + g) * (1 + e2)). assert (Q1 : Rabs (q1 - 1) <= 3 * uu).
  { unfold q1. assert (A := near1 (1 + g) e2 (uu + uu * / 512)). eapply Rle_trans; [apply A; [replace (1 + g - 1) with g by ring; exact Hg|lra|exact He2]|lra]. }
  assert (Vi' : fval iv = / r * q1) by (rewrite Vi; unfold q1; ring).
  assert (Q1' : 1 - 3 * uu <= q1 <= 1 + 3 * uu) by (assert (A := Rle_abs (q1 - 1)); assert (A2 := Rle_abs (- (q1 - 1))); rewrite Rabs_Ropp in A2; lra).
  (* iv * c = r q1 *)
  assert (X2 : fval iv * C = r * q1) by (rewrite Vi', <- rr; field; lra).
  assert (X2s : r * / 2 <= r * q1 <= r * 2) by (split; apply Rmult_le_compat_l; lra).
  assert (H537 : pw (-1022) <= pw (-537) * / 2). { change (/ 2) with (pw (-1)). rewrite <- bpow_plus. apply bpow_le. lia. }
  assert (B512 : pw 512 * 2 <= pw 1020). { change 2 with (pw 1). rewrite <- bpow_plus. apply bpow_le. lia. }
  destruct (fmul_val iv c Ni N) as [Nc Vc]. { fold C. rewrite X2, Rabs_right by lra. lra. }
  fold C in Vc. rewrite X2 in Vc. destruct (rd_rel (r * q1)) as (e3 & He3 & Ec). { rewrite Rabs_right by lra. lra. }
  rewrite Ec in Vc.
  assert (Q2 : Rabs (q1 * (1 + e3) - 1) <= 4 * uu + uu * / 512) by (eapply Rle_trans; [apply (near1 q1 e3 (3 * uu) Q1 ltac:(lra) He3)|lra]).
  set (q2 := q1 * (1 + e3)) in *.
  assert (X3 : fval (fmul iv c) * fval iv = q2 * q1) by (rewrite Vc, Vi'; unfold q2; field; lra).
  assert (Q3 : Rabs (q2 * q1 - 1) <= 8 * uu).
  { replace (q2 * q1 - 1) with ((q2 - 1) + (q1 - 1) * (1 + (q2 - 1))) by ring.
    assert (B : Rabs (1 + (q2 - 1)) <= 1 + / 100). { eapply Rle_trans; [apply Rabs_triang|]. rewrite Rabs_R1. lra. }
    assert (A := abs_plus _ _ _ _ Q2 (abs_mul_le _ _ _ _ Q1 B)).
    eapply Rle_trans; [exact A|]. lra. }
  assert (Q3' : / 2 <= q2 * q1 <= 2) by (assert (A := Rle_abs (q2 * q1 - 1)); assert (A2 := Rle_abs (- (q2 * q1 - 1))); rewrite Rabs_Ropp in A2; lra).
  assert (B1 : pw (-1022) <= / 2) by (change (/ 2) with (pw (-1)); apply bpow_le; lia). assert (B2 : 2 <= pw 1020) by (apply Rle_trans with (pw 1); [apply Rle_refl|apply bpow_le; lia]).
  destruct (fmul_val (fmul iv c) iv Nc Ni) as [Nf Vf]. { rewrite X3, Rabs_right by lra. lra. }
  split; [exact Nf|]. rewrite X3 in Vf. destruct (rd_rel (q2 * q1)) as (e4 & He4 & Ef). { rewrite Rabs_right by lra. lra. }
  rewrite Vf, Ef. eapply Rle_trans; [apply (near1 _ e4 (8 * uu) Q3 ltac:(lra) He4)|]. lra.
Qed.

Lemma fmul_nan_l x : fmul B754_nan x = B754_nan.
Proof. reflexivity. Qed.
(** Any correlation-stage variance: 1 within 10 units, or NaN. *)
Lemma fcorr_any c : fcorr c = B754_nan \/ (isnum (fcorr c) /\ Rabs (fval (fcorr c) - 1) <= 10 * uu).
Proof.
  destruct c as [s|s| |s m e B] eqn:Ec; try (left; reflexivity).
  - left. destruct s; reflexivity.
  - destruct s.
    + left. unfold fcorr, finv. destruct (Beqb _ f0); [reflexivity|]. unfold fsqrt, Bsqrt. reflexivity.
    + right. apply fcorr_pos; [reflexivity|]. unfold fval. simpl. apply F2R_gt_0. reflexivity.
Qed.
(** Scaling by a volatility of moderate size. *)
Lemma fdiag c v : isnum v -> pw (-500) <= Rabs (fval v) <= pw 500 ->
  let r := fmul (fmul v (fcorr c)) v in
  r = B754_nan \/ (isnum r /\ Rabs (fval r - fval v ^ 2) <= pw (-49) * fval v ^ 2).
Proof.
  intros Nv Hv r. destruct uu_1 as [U _]. pose proof uu_pos as U0.
  destruct (fcorr_any c) as [E|[Nc Hc]]; [left; unfold r; rewrite E, fmul_nan; reflexivity|]. right.
  set (p := fval (fcorr c)) in *. set (V := fval v) in *. assert (P500 : 0 < pw (-500)) by apply bpow_gt_0.
  assert (Hp : / 2 <= p <= 2) by (assert (A := Rle_abs (p - 1)); assert (A2 := Rle_abs (- (p - 1))); rewrite Rabs_Ropp in A2; lra).
  assert (B500 : pw 500 * 2 <= pw 1020). { change 2 with (pw 1). rewrite <- bpow_plus. apply bpow_le. lia. }
  assert (L500 : pw (-1022) <= pw (-500) * / 2). { change (/ 2) with (pw (-1)). rewrite <- bpow_plus. apply bpow_le. lia. }
  assert (X1 : Rabs (V * p) = Rabs V * p) by (rewrite Rabs_mult, (Rabs_right p) by lra; reflexivity).
  assert (X1s : Rabs V * / 2 <= Rabs V * p <= Rabs V * 2) by (split; apply Rmult_le_compat_l; lra).
  destruct (fmul_val v (fcorr c) Nv Nc) as [N1 V1]. { fold V p. rewrite X1. lra. }
  fold V p in V1. destruct (rd_rel (V * p)) as (e5 & He5 & E5). { rewrite X1. lra. }
  rewrite E5 in V1. assert (Q : Rabs (p * (1 + e5) - 1) <= 12 * uu) by (eapply Rle_trans; [apply (near1 p e5 (10 * uu) Hc ltac:(lra) He5)|lra]).
  set (q := p * (1 + e5)) in *. assert (Hq : / 2 <= q <= 2) by (assert (A := Rle_abs (q - 1)); assert (A2 := Rle_abs (- (q - 1))); rewrite Rabs_Ropp in A2; lra).
  assert (X2 : fval (fmul v (fcorr c)) * V = V * V * q) by (rewrite V1; unfold q; ring).
  assert (VV : 0 <= V * V) by nra. assert (VA : V * V = Rabs V * Rabs V) by (rewrite <- Rabs_mult, Rabs_right by lra; reflexivity).
  assert (X2a : Rabs (V * V * q) = Rabs V * Rabs V * q) by (rewrite Rabs_mult, (Rabs_right (V * V)), (Rabs_right q) by lra; rewrite VA; reflexivity).
  assert (V2 : pw (-500) * pw (-500) <= Rabs V * Rabs V <= pw 500 * pw 500) by (split; apply Rmult_le_compat; lra).
  rewrite <- !bpow_plus in V2. simpl (-500 + -500)%Z in V2. simpl (500 + 500)%Z in V2.
  assert (X2s : Rabs V * Rabs V * / 2 <= Rabs V * Rabs V * q <= Rabs V * Rabs V * 2) by (split; apply Rmult_le_compat_l; lra).
  assert (B1000 : pw 1000 * 2 <= pw 1020). { change 2 with (pw 1). rewrite <- bpow_plus. apply bpow_le. lia. }
  assert (L1000 : pw (-1022) <= pw (-1000) * / 2). { change (/ 2) with (pw (-1)). rewrite <- bpow_plus. apply bpow_le. lia. }
  destruct (fmul_val (fmul v (fcorr c)) v N1 Nv) as [N2 W]. { fold V. rewrite X2, X2a. lra. }
  fold V in W. rewrite X2 in W. destruct (rd_rel (V * V * q)) as (e6 & He6 & E6). { rewrite X2a. lra. }
  rewrite E6 in W. split; [exact N2|]. fold r in W. rewrite W.
  assert (Q2 : Rabs (q * (1 + e6) - 1) <= 16 * uu) by (eapply Rle_trans; [apply (near1 q e6 (12 * uu) Q ltac:(lra) He6)|lra]).
  replace (V * V * q * (1 + e6) - V ^ 2) with (V * V * (q * (1 + e6) - 1)) by ring. rewrite Rabs_mult, (Rabs_right (V * V)) by lra.
  replace (pw (-49) * V ^ 2) with (V * V * (16 * uu)).
  - apply Rmult_le_compat_l; lra.
  - unfold uu. change 16 with (pw 4). replace (pw (-49)) with (pw 4 * pw (-53)) by (rewrite <- bpow_plus; reflexivity). ring.
Qed.

(** The diagonal of every covariance yielded by a binary64 run, whatever the settings and the data. *)
Theorem fdiagonal L P f outs o j : valid_returns f -> iterated_ewma (N := IEEE L) P f = Ok outs -> In o outs -> (j < length (fcols f))%nat ->
  let v := nth j (ivol o) (B754_nan : b64) in
  isnum v -> pw (-500) <= Rabs (fval v) <= pw 500 ->
  fcell (icov o) j j = B754_nan \/
  (isnum (fcell (icov o) j j) /\ Rabs (fval (fcell (icov o) j j) - fval v ^ 2) <= pw (-49) * fval v ^ 2).
Proof.
  intros Hf HO Hin Hj v Nv Hv. assert (Hnan : nisnan (Num := IEEE L) nnan = true) by reflexivity. set (n := length (fcols f)) in *.
  destruct (out_shape (N := IEEE L) P f outs o Hnan Hf HO Hin) as (_ & Lv & _).
  destruct (iterated_betas _ _ _ HO) as (b1 & bv & b2 & bc & Hb).
  pose proof (valid_good f Hf) as Hg. pose proof (valid_fw f Hf) as Hfw. fold n in Hfw.
  rewrite (iterated_ewma_betas _ _ _ _ _ _ Hnan Hg Hb) in HO.
  destruct (isnil _); [discriminate|]. inversion HO; subst outs; clear HO.
  unfold it_tot in Hin. apply in_map_iff in Hin. destruct Hin as ([t m] & Eo & Hin).
  pose proof (cov_tot_sq n P f b1 bv b2 bc t m Hfw Hin) as Hsq.
  set (vola := loc0 (volaf_tot b1 bv P f) t). assert (Ev : ivol o = vola) by (rewrite <- Eo; reflexivity).
  assert (Ec : icov o = scale_cov vola m) by (rewrite <- Eo; reflexivity).
  rewrite Ev in Lv.
  assert (Sq := scale_cov_sq n vola m Hsq Lv). destruct Sq as [S1 S2].
  assert (FE : fcell (icov o) j j = fmul (fmul v (fcorr (nth j (nth j (fvals m) []) (f0 : b64)))) v).
  { rewrite Ec. unfold fcell. rewrite (nth_indep _ B754_nan (@n0 (IEEE L))).
    - etransitivity; [exact (scale_cov_entry n vola m j j Hsq Lv Hj Hj)|]. unfold v. rewrite Ev.
      rewrite (nth_indep vola B754_nan (@n0 (IEEE L))) by (rewrite Lv; exact Hj). reflexivity.
    - assert (E := Forall_nth_lt _ _ [] j S2). cbv beta in E.
      exact (eq_ind_r (fun z => (j < z)%nat) Hj (E (eq_ind_r (fun z => (j < z)%nat) Hj S1))). }
  rewrite FE. apply fdiag; assumption.
Qed.
