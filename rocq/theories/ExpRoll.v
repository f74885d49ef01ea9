(** * rolling_window: closed form. *)
From Coq Require Import Reals ZArith String List Lia Lra.
Set Warnings "-notation-overridden,-ambiguous-paths".
From mathcomp Require Import all_ssreflect all_algebra.
From mathcomp.zify Require Import zify_ssreflect.
From Verif Require Import RStruct MatR Spectral Num Py ListFacts CombFacts Combination Regularization ExpUtils SpecExp.
Set Implicit Arguments.
Unset Strict Implicit.
Unset Printing Implicit Defensive.
Import GRing.Theory.
Local Open Scope ring_scope.
Delimit Scope R_scope with re.

Section Roll.
  Context (n : nat).
  Notation row := 'cV[R]_n.
  Implicit Types (rows : seq row) (m t : nat).

  Lemma window_step rows m t : (0 < m)%N ->
    window_sum rows m t.+1 + (if (m <= t.+1)%N then outerm (nth 0 rows (t.+1 - m)) else 0) =
    window_sum rows m t + outerm (nth 0 rows t.+1).
  Proof.
    move=> Hm. rewrite /window_sum [in LHS]big_mkcond big_ord_recr /= -big_mkcond /=.
    have ->: (t.+1 < t.+1 + m)%N by rewrite -{1}(addn0 t.+1) ltn_add2l.
    rewrite addrAC; congr (_ + _).
    rewrite [in RHS](bigID (fun s : 'I_t.+1 => (t.+1 < s + m)%N)) /=; congr (_ + _).
    - apply: eq_bigl => s. case E: (t.+1 < s + m)%N; rewrite ?andbT ?andbF //. by rewrite (ltn_trans (ltnSn t) E).
    - case: ifP => H.
      + have Hs: (t.+1 - m < t.+1)%N by rewrite ltn_subrL Hm.
        rewrite (big_pred1 (Ordinal Hs)) // => s /=.
        rewrite -leqNgt -eqn_leq -val_eqE /=. apply/eqP/eqP; lia.
      + rewrite big_pred0 // => s. apply/negbTE/negP => /andP[H1]. rewrite -leqNgt => H2. move/negbT: H; rewrite -ltnNge => H. lia.
  Qed.

  Definition roll_value rows m t : 'M[R]_n :=
    if (m == 1)%N then window_sum rows m t
    else (/ INR (minn t.+2 m))%re *: (window_sum rows m t + outerm (nth 0 rows 0)).

  Lemma window1 rows t : window_sum rows 1 t = outerm (nth 0 rows t).
  Proof.
    rewrite /window_sum big_mkcond big_ord_recr /= addn1 ltnSn -big_mkcond /= big_pred0 ?add0r // => s.
    rewrite addn1; apply/negbTE; rewrite -leqNgt; exact: ltn_ord.
  Qed.

  Lemma Zmin_nat a b : Z.min (Z.of_nat a) (Z.of_nat b) = Z.of_nat (minn a b).
  Proof. rewrite /minn; case: ltnP => H; lia. Qed.
  Lemma int_div_nat a : (0 < a)%N -> int_div 1 (Z.of_nat a) = Ok (/ INR a)%re.
  Proof.
    move=> Ha. rewrite /int_div. case: Z.eqb_spec => [|_]; first lia.
    by rewrite -INR_IZR_INZ /Rdiv Rmult_1_l.
  Qed.
  Lemma INR_ne0 a : (0 < a)%N -> INR a <> R0.
  Proof. by move=> Ha; apply: not_0_INR; lia. Qed.

  Lemma pyget_nth (A : Type) (l : seq A) (d : A) (i : nat) : (i < size l)%N -> pyget l (Z.of_nat i) = Ok (nth d l i).
  Proof.
    move=> Hi. rewrite /pyget /pynorm. have ->: Z.ltb (Z.of_nat i) 0 = false by apply/Z.ltb_ge; lia.
    have ->: (Z.leb 0 (Z.of_nat i) && Z.ltb (Z.of_nat i) (Z.of_nat (length l)))%bool.
    { apply/andP; split; [apply/Z.leb_spec0|apply/Z.ltb_spec0]; first lia. change (length l) with (size l). lia. }
    rewrite Nat2Z.id. elim: l i Hi => [//|a l IH] [|i] //= Hi. exact: IH.
  Qed.
  Lemma pyget_out (A : Type) (l : seq A) (i : Z) : Z.le (Z.of_nat (size l)) i -> pyget l i = Raise IndexError.
  Proof.
    move=> Hi. rewrite /pyget /pynorm. have ->: Z.ltb i 0 = false by apply/Z.ltb_ge; lia.
    case: ifP => [/andP[_ /Z.ltb_spec0 H]|//]. change (length l) with (size l) in H. lia.
  Qed.

  Lemma roll_step rows m t : (0 < m)%N ->
    roll_value rows m t.+1 =
    (/ INR (minn t.+3 m) / / INR (minn t.+2 m))%re *: roll_value rows m t +
    (/ INR (minn t.+3 m))%re *: (outerm (nth 0 rows t.+1) - if (m <= t.+1)%N then outerm (nth 0 rows (t.+1 - m)) else 0).
  Proof.
    move=> Hm. rewrite /roll_value. have := window_step rows t Hm. case: eqP => [->|Hm1].
    - have ->: minn t.+3 1 = 1%N by rewrite /minn. have ->: minn t.+2 1 = 1%N by rewrite /minn.
      rewrite !window1 /= => E. have ->: (/ 1 / / 1)%re = 1 by toR; field. have ->: (/ 1)%re = 1 by toR; field.
      rewrite !scale1r subn1 /=. by rewrite addrC subrK.
    - have Hm3: (0 < minn t.+3 m)%N by rewrite leq_min Hm. have Hm2: (0 < minn t.+2 m)%N by rewrite leq_min Hm.
      move: (window_sum _ _ t.+1) (window_sum _ _ t) => W1 W0.
      move: (if _ then _ else _) => O E. have {E}->: W1 = W0 + outerm (nth 0 rows t.+1) - O by rewrite -E addrK.
      rewrite scalerA. move: (INR_ne0 Hm2) (INR_ne0 Hm3).
      move: (INR (minn t.+3 m)) (INR (minn t.+2 m)) => a b Hb Ha.
      have ->: (/ a / / b)%re * (/ b)%re = (/ a)%re by toR; eqR; field.
      rewrite -scalerDr; congr (_ *: _).
      by rewrite -(addrA W0) addrAC.
  Qed.

  Lemma roll_value0 rows m : (0 < m)%N -> roll_value rows m 0 = outerm (nth 0 rows 0).
  Proof.
    move=> Hm. rewrite /roll_value. have E: window_sum rows m 0 = outerm (nth 0 rows 0).
    { by rewrite /window_sum big_mkcond big_ord_recr big_ord0 /= Hm add0r. }
    case: eqP => [//|H1]. rewrite E. have ->: minn 2 m = 2%N by apply/minn_idPl; lia.
    rewrite -mulr2n -scaler_nat scalerA -[RHS]scale1r. congr (_ *: _). rewrite mulr2n. change (INR 2) with (1 + 1)%re. toR; eqR. field.
  Qed.

  Lemma rolling_loop_ok rows m rest : forall t, (0 < m)%N -> drop t.+1 rows = rest -> (t < size rows)%N ->
    rolling_loop rows (Z.of_nat m) t.+1 rest (roll_value rows m t) = Ok [seq roll_value rows m s | s <- iota t.+1 (size rest)].
  Proof.
    elim: rest => [|r rest IH] t Hm Hd Ht //.
    have Hs: (t.+1 < size rows)%N by rewrite -subn_gt0 -size_drop Hd.
    move: Hd. rewrite (drop_nth 0) // => -[Hr Hd].
    cbn [rolling_loop].
    have ->: Z.add (Z.of_nat t.+1) 1 = Z.of_nat t.+2 by lia.
    have ->: Z.add (Z.of_nat t.+1) 2 = Z.of_nat t.+3 by lia.
    rewrite !Zmin_nat !int_div_nat; [|by rewrite leq_min Hm..]. cbn [bind].
    have E: roll_value rows m t.+1 = _ := roll_step rows t Hm.
    have Hle: Z.leb (Z.of_nat m) (Z.of_nat t.+1) = (m <= t.+1)%N.
    { apply/Z.leb_spec0/leP; lia. }
    rewrite Hle. case: ifP E => Hmt E.
    - have ->: Z.sub (Z.of_nat t.+1) (Z.of_nat m) = Z.of_nat (t.+1 - m)%N by lia.
      rewrite (pyget_nth 0) /=; last by lia. rewrite -Hr -E IH //.
    - rewrite /= -Hr. rewrite subr0 in E. rewrite -E IH //.
  Qed.

  Lemma loop_zero rows t rest prev : rest <> [::] -> rolling_loop rows 0 t rest prev = Raise ZeroDivisionError.
  Proof. case: rest => [//|r rest] _ /=. have ->: Z.min (Z.of_nat t + 1) 0 = Z0 by lia. by []. Qed.
  Lemma loop_neg rows memory rest : Z.lt memory 0 -> rest <> [::] -> forall t prev, (t + size rest = size rows)%N ->
    rolling_loop rows memory t rest prev = Raise IndexError.
  Proof.
    move=> Hneg. elim: rest => [//|r rest IH] _ t prev Hsz /=.
    have ->: Z.min (Z.of_nat t + 1) memory = memory by lia. have ->: Z.min (Z.of_nat t + 2) memory = memory by lia.
    have E: int_div 1 memory = Ok (1 / IZR memory)%re by rewrite /int_div; case: Z.eqb_spec => // ?; lia.
    rewrite E /=. have ->: Z.leb memory (Z.of_nat t) by apply/Z.leb_spec0; lia.
    case Eg: (pyget rows (Z.of_nat t - memory)) => [old|e] /=.
    - case: rest IH Hsz => [|r' rest] IH Hsz.
      + rewrite pyget_out // in Eg. move: Hsz; rewrite /= addn1 => <-. lia.
      + by rewrite IH //= -Hsz /= addSnnS.
    - move: Eg. rewrite /pyget. case: ifP => _; last by move=> [<-]. case: (List.nth_error _ _) => // -[<-] //.
  Qed.

  Lemma map_fst_zip (A B : Type) (s : seq A) (u : seq B) : size s = size u -> map fst (zip s u) = s.
  Proof. by elim: s u => [|a s IH] [|b u] //= [/IH ->]. Qed.

  Theorem rolling_closed times assets rows m mp :
    size times = size rows -> List.NoDup times -> rows <> [::] -> (0 < m)%N ->
    let first := Z.to_nat (Z.max mp 1 - 1) in
    exists d, rolling_window times assets rows (Z.of_nat m) mp = Ok d /\
      map fst d = drop first times /\
      forall t, (first <= t < size rows)%N -> dict_get Z.eqb d (nth Z0 times t) = Some (assets, roll_value rows m t).
  Proof.
    move=> Hsz Hnd Hne Hm first. case: rows Hsz Hne => [//|r0 rest] Hsz _.
    rewrite /rolling_window. set rows := r0 :: rest in Hsz *.
    have E0: outerm r0 = roll_value rows m 0 by rewrite roll_value0.
    rewrite E0 (rolling_loop_ok (rest := rest)) //=; last by rewrite /rows /= drop0. rewrite -E0 -/first.
    set ts := drop first times. set vals := drop first (_ :: _).
    have Hv: outerm r0 :: [seq roll_value rows m s | s <- iota 1 (size rest)] = [seq roll_value rows m s | s <- iota 0 (size rows)].
    { by rewrite /= E0. }
    have Hsv: size ts = size [seq (assets, S) | S <- vals] by rewrite size_map /ts /vals Hv !size_drop Hsz size_map size_iota.
    have Hkeys: map fst (zip ts [seq (assets, S) | S <- vals]) = ts by rewrite map_fst_zip.
    have Hnd': List.NoDup ts.
    { rewrite /ts. elim: (first) (times) Hnd => [|k IH] [|a l] Hnd //=. by inversion Hnd; apply: IH. }
    rewrite dict_of_nodup; last by change (@List.map (Z * (seq string * 'M[R]_n)) Z fst) with (@map (Z * (seq string * 'M[R]_n)) Z fst); rewrite Hkeys.
    exists (zip ts [seq (assets, S) | S <- vals]); split=> //; split=> // t /andP[Hf Ht].
    apply: dict_get_in; first by change (@List.map (Z * (seq string * 'M[R]_n)) Z fst) with (@map (Z * (seq string * 'M[R]_n)) Z fst); rewrite Hkeys.
    have Hlt: (t - first < size ts)%N by rewrite /ts size_drop Hsz ltn_sub2r // (leq_ltn_trans Hf Ht).
    have ->: (nth Z0 times t, (assets, roll_value rows m t)) = nth (Z0, (assets, 0)) (zip ts [seq (assets, S) | S <- vals]) (t - first).
    { rewrite nth_zip //. congr (_, _); first by rewrite /ts nth_drop subnKC.
      rewrite (nth_map 0); last by rewrite -(size_map (pair assets)) -Hsv.
      congr (_, _). rewrite /vals Hv nth_drop subnKC // (nth_map 0%N); last by rewrite size_iota.
      by rewrite nth_iota. }
    have: (t - first < size (zip ts [seq (assets, S) | S <- vals]))%N by rewrite size_zip -Hsv minnn.
    move: (zip _ _) (t - first)%N. elim=> [//|a l IH] [|k] //=; first by left. by move=> H; right; apply: IH.
  Qed.

  Lemma outer_psd (x : row) : psd (outerm x).
  Proof. by have := @psd_gram 1 n (x^T); rewrite trmxK. Qed.
  Lemma psdD (A B : 'M[R]_n) : psd A -> psd B -> psd (A + B).
  Proof.
    move=> [Ha Ha'] [Hb Hb']; split; first by rewrite /sym trD Ha Hb.
    move=> x; rewrite qfD. exact: Rplus_le_le_0_compat.
  Qed.
  Lemma psdZ c (A : 'M[R]_n) : Rle 0 c -> psd A -> psd (c *: A).
  Proof.
    move=> Hc [Ha Ha']; split; first by rewrite /sym trZ Ha. move=> x; rewrite qfZ. exact: Rmult_le_pos.
  Qed.
  Lemma psd0 : psd (0 : 'M[R]_n).
  Proof. split; first by rewrite /sym trmx0. move=> x. rewrite /qf mulmx0 mul0mx mxE. exact: Rle_refl. Qed.
  Lemma window_psd rows m t : psd (window_sum rows m t).
  Proof. rewrite /window_sum. elim/big_ind: _ => [|A B|s _]; [exact: psd0|exact: psdD|exact: outer_psd]. Qed.
  Lemma roll_psd rows m t : (0 < m)%N -> psd (roll_value rows m t).
  Proof.
    move=> Hm. rewrite /roll_value. case: ifP => _; first exact: window_psd.
    apply: psdZ; last by apply: psdD; [exact: window_psd|exact: outer_psd].
    apply: Rlt_le; apply: Rinv_0_lt_compat. apply: lt_0_INR. apply/ltP. by rewrite leq_min Hm.
  Qed.
  Lemma outer0 (x : row) : outerm x = 0 <-> x = 0.
  Proof.
    split=> [E|->]; last by rewrite /outerm mul0mx.
    apply: nsq_eq0. rewrite nsqE. rewrite big1 // => i _.
    have := congr1 (fun M : 'M[R]_n => M i i) E. by rewrite /outerm !mxE big_ord1 !mxE.
  Qed.
  (** With a full window the result is the window mean exactly when the first row is zero. *)
  Lemma roll_is_mean rows m t : (2 <= m)%N -> (m <= t.+1)%N ->
    roll_value rows m t = (/ INR m)%re *: window_sum rows m t <-> nth 0 rows 0 = 0.
  Proof.
    move=> Hm Ht. rewrite /roll_value. have ->: (m == 1)%N = false by apply/eqP; lia.
    have ->: minn t.+2 m = m by apply/minn_idPr; lia.
    have Hn: INR m <> R0 by apply: INR_ne0; lia.
    rewrite -(outer0 (nth 0 rows 0)). split=> [E|->]; last by rewrite addr0.
    move: E. rewrite scalerDr -[RHS]addr0 => /addrI E.
    have: INR m *: ((/ INR m)%re *: outerm (nth 0 rows 0)) = 0 by rewrite E scaler0.
    rewrite scalerA. have ->: INR m * (/ INR m)%re = 1 by toR; eqR; field. by rewrite scale1r.
  Qed.
End Roll.
