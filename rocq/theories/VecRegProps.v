(** * The helpers of iterated_ewma_vec.py: proofs. *)
From Coq Require Import Reals ZArith List Lia Lra.
Set Warnings "-notation-overridden,-ambiguous-paths".
From mathcomp Require Import all_ssreflect all_algebra.
From Verif Require Import RStruct MatR Num Py Combination Spectral Regularization SpecReg RegProps RegMain VecReg SpecVecReg.
Set Implicit Arguments.
Unset Strict Implicit.
Unset Printing Implicit Defensive.
Import GRing.Theory.
Local Open Scope ring_scope.
Delimit Scope R_scope with re.

Section VecRegProps.
  Context (n : nat).
  Implicit Types (A S U : 'M[R]_n) (d : 'rV[R]_n).

  Lemma kept_drop m : (m <= n)%N -> [seq i <- enum 'I_n | kept m i] = drop (n - m) (enum 'I_n).
  Proof.
    move=> Hm. apply: (inj_map val_inj). rewrite map_drop val_enum_ord.
    have -> : map val [seq i <- enum 'I_n | kept m i] = [seq k <- map val (enum 'I_n) | (n - m <= k)%N].
      by elim: (enum 'I_n) => [//|x l IH] /=; rewrite /kept; case: ifP => _ /=; rewrite -/(kept m) IH.
    rewrite val_enum_ord drop_iota. have := leq_subr m n. move: (n - m)%N => a Ha.
    rewrite -{1}(subnKC Ha) iotaD filter_cat add0n. rewrite (_ : filter _ (iota 0 a) = [::]) ?cat0s ?add0n; last first.
      apply/eqP; rewrite -(negbK (_ == _)) -has_filter; apply/hasPn => k; rewrite mem_iota add0n -ltnNge => /andP [_ //].
    by apply/all_filterP/allP => k; rewrite mem_iota => /andP [].
  Qed.
  Lemma take_kept T (f : 'I_n -> T) m : (m <= n)%N -> take m (rev [seq f i | i <- enum 'I_n]) = rev [seq f i | i <- enum 'I_n & kept m i].
  Proof. move=> Hm. rewrite take_rev size_map size_enum_ord kept_drop // map_drop. by []. Qed.
  Lemma slice_le r : (slice_len n r <= n)%N.
  Proof. rewrite /slice_len. case: Z.ltb_spec => H; last exact: geq_minr. apply/leP. lia. Qed.

  (** The low-rank part is the sum over the largest eigenvalues; entries. *)
  Lemma low_entry r d U a b : let Q := take (slice_len n r) (rev [seq col i U | i <- enum 'I_n]) in
    (of_cols Q *m diag_mx (\row_k nth 0 (take (slice_len n r) (rev [seq d 0 i | i <- enum 'I_n])) k) *m (of_cols Q)^T) a b =
    \sum_(i | kept (slice_len n r) i) d 0 i * U a i * U b i.
  Proof.
    rewrite /=. have Hm := slice_le r. rewrite lowrank_entry; last by rewrite !size_take !size_rev !size_map.
    rewrite !take_kept // -rev_zip ?size_map // (perm_big _ (permEl (perm_rev _))).
    by rewrite zip_map big_map big_filter big_enum_cond /=; apply: eq_bigr => i _; rewrite !mxE.
  Qed.
  Lemma one_entry r A d U a b : regularize_one_corr r A (d, U) a b =
    if a == b then A a a else \sum_(i | kept (slice_len n r) i) d 0 i * U a i * U b i.
  Proof.
    rewrite /regularize_one_corr addE [diag_mx _ _ _]mxE [(\row__ _) _ _]mxE subE. case: eqP => [->|_].
      by rewrite mulr1n addrC subrK.
    by rewrite mulr0n addr0; exact: low_entry.
  Qed.
  Lemma one_psd r A d U : is_eig A U d -> psd A -> psd (regularize_one_corr r A (d, U)).
  Proof.
    move=> He HA. have Hd : forall i, (0 <= d ord0 i)%re by move=> i; exact: (eig_psd i He).
    pose m := slice_len n r. pose F : 'M[R]_n := \matrix_(a, i) (if kept m i then U a i * sqrt (d 0 i) else 0).
    pose e : 'cV[R]_n := \col_a \sum_(i | ~~ kept m i) d 0 i * U a i * U a i.
    have -> : regularize_one_corr r A (d, U) = factor_model F e.
      have EF : forall a b, \sum_i F a i * F b i = \sum_(i | kept m i) d 0 i * U a i * U b i.
        move=> a b. rewrite [RHS]big_mkcond. apply: eq_bigr => i _. rewrite !mxE. case: ifP => _; last by rewrite mul0r.
        have : sqrt (d 0 i) * sqrt (d 0 i) = d 0 i by exact: sqrt_sqrt (Hd i).
        move: (sqrt (d 0 i)) => z <-. move: (U a i) (U b i) => x y. Rring.
      apply/matrixP => a b. rewrite one_entry fm_entry EF. case: eqP => [->|_]; last by rewrite mulr0n addr0.
      by rewrite mulr1n (eig_entry _ _ He) (bigID (kept m)) /= [e _ _]mxE.
    apply: fm_psd => a. rewrite mxE. apply: sumR_ge0 => i _. rewrite -mulrA. apply: Rmult_le_pos; [exact: Hd|exact: Rle_0_sqr].
  Qed.
  Lemma one_full r A d U : is_eig A U d -> Z.le (Z.of_nat n) r -> regularize_one_corr r A (d, U) = A.
  Proof.
    move=> He Hr. have Em : slice_len n r = n.
      rewrite /slice_len. case: Z.ltb_spec => H; first by lia. apply/minn_idPr. apply/leP. lia.
    apply/matrixP => a b. rewrite one_entry Em. case: eqP => [->//|_]. rewrite (eig_entry a b He).
    by apply: eq_bigl => i; rewrite /kept subnn.
  Qed.
  Lemma one_zero r A d U : (r = Z0 \/ Z.le r (Z.opp (Z.of_nat n))) -> regularize_one_corr r A (d, U) = diag_mx (\row_i A i i).
  Proof.
    move=> Hr. have Em : slice_len n r = 0%N.
      rewrite /slice_len. case: Z.ltb_spec => H; [lia|]. case: Hr => [->|H']; first by rewrite min0n. 
      have -> : r = Z0 by lia. by rewrite min0n.
    apply/matrixP => a b. rewrite one_entry Em mxE [(\row__ _) _ _]mxE. case: eqP => [->|_]; first by rewrite mulr1n.
    rewrite mulr0n big_pred0 // => i. by rewrite /kept subn0 leqNgt ltn_ord.
  Qed.
  (** Agreement with the library function. *)
  Lemma one_library (eigh : np_eigh_t n) A d U r : eigh A = Some (d, U) -> (Z.le 1 r /\ Z.le r (Z.of_nat n)) ->
    exists L, regularize_correlation (subset_eigh eigh) A r = Ok L /\ Approximation L = regularize_one_corr r A (d, U).
  Proof.
    move=> E Hr. rewrite /regularize_correlation /eigh_call.
    have -> : (Z.leb 0 (Z.sub (Z.of_nat n) r) && Z.leb (Z.sub (Z.of_nat n) r) (Z.sub (Z.of_nat n) 1) && Z.ltb (Z.sub (Z.of_nat n) 1) (Z.of_nat n))%bool = true.
      apply/andP; split; [apply/andP; split; apply/Z.leb_le; lia|apply/Z.ltb_lt; lia].
    rewrite /subset_eigh E /=. eexists; split; first reflexivity. rewrite /=.
    have Em : slice_len n r = Z.to_nat r.
      rewrite /slice_len. case: Z.ltb_spec => H; first by lia. apply/minn_idPl. apply/leP. lia.
    have Hm : (Z.to_nat r <= n)%N by apply/leP; lia.
    have Ek : forall T (f : 'I_n -> T), [seq f i | i <- enum 'I_n & index_in (Z.sub (Z.of_nat n) r) (Z.sub (Z.of_nat n) 1) i] = [seq f i | i <- enum 'I_n & kept (Z.to_nat r) i].
      move=> T f. congr [seq _ | _ <- _]. apply: eq_filter => i. rewrite -{1}(Z2Nat.id r); last lia. apply: kept_index => //. apply/ltP. lia.
    by rewrite /regularize_one_corr Em /= !take_kept // !Ek.
  Qed.

  Lemma corrs_spec (eigh : np_eigh_t n) Rs r out : np_eigh_ok eigh -> regularize_corrs eigh Rs r = Ok out ->
    size out = size Rs /\
    forall j A B, List.nth_error Rs j = Some A -> List.nth_error out j = Some B ->
      (forall i, B i i = A i i) /\
      (psd A -> psd B) /\
      (sym A -> Z.le (Z.of_nat n) r -> B = A) /\
      ((r = Z0 \/ Z.le r (Z.opp (Z.of_nat n))) -> B = diag_mx (\row_i A i i)) /\
      ((Z.le 1 r /\ Z.le r (Z.of_nat n)) -> exists L, regularize_correlation (subset_eigh eigh) A r = Ok L /\ Approximation L = B) /\
      (Z.lt r 0 -> regularize_corrs eigh [:: A] r = regularize_corrs eigh [:: A] (Z.max 0 (Z.add (Z.of_nat n) r))).
  Proof.
    move=> Hok. rewrite /regularize_corrs. case E : (mapM _ Rs) => [dec|//] /= H.
    have {H} <- : [seq regularize_one_corr r p.1 p.2 | p <- zip Rs dec] = out by case: (Rs) H => // ? ? [].
    have Hdec : size dec = size Rs /\ forall j A, List.nth_error Rs j = Some A -> exists dU, List.nth_error dec j = Some dU /\ eigh A = Some dU.
      elim: Rs dec E => [|A Rs IH] dec /=; first by case=> <-; split=> // -[].
      case EA : (eigh A) => [dU|//] /=. case E2 : (mapM _ Rs) => [dec'|//] /= [<-]. have [H1 H2] := IH _ E2. split; first by rewrite /= H1.
      by case=> [|j] B /=; [case=> <-; exists dU|exact: H2].
    case: Hdec => Hs Hdec. split; first by rewrite size_map size_zip Hs minnn.
    move=> j A B HA. have [[d U] [Hd EA]] := Hdec _ _ HA.
    have Hz : List.nth_error [seq regularize_one_corr r p.1 p.2 | p <- zip Rs dec] j = Some (regularize_one_corr r A (d, U)).
      elim: Rs dec j HA Hd {E Hs Hdec} => [|A' Rs IH] [|d' dec] [|j] //=; first by case=> -> [->]. exact: IH.
    rewrite Hz => -[<-]. split; first by move=> i; rewrite one_entry eqxx.
    have Hsl : Z.lt r 0 -> slice_len n r = slice_len n (Z.max 0 (Z.add (Z.of_nat n) r)).
      move=> H. rewrite /slice_len. case: Z.ltb_spec => H1; last by lia. case: Z.ltb_spec => H2; first by lia.
      have [H3|H3] : (Z.le 0 (Z.add (Z.of_nat n) r) \/ Z.lt (Z.add (Z.of_nat n) r) 0) by lia.
      - rewrite Z.max_r //. apply/esym/minn_idPl. apply/leP. lia.
      - rewrite Z.max_l; last by lia. rewrite min0n. by case: (Z.add _ _) H3.
    split; first by move=> HpsdA; apply: one_psd => //; apply: Hok EA; case: HpsdA.
    split; first by move=> HsA Hr; apply: one_full => //; exact: Hok EA.
    split; first by move=> Hr; exact: one_zero. split.
    - move=> Hr. exact: one_library.
    - move=> Hr. by rewrite /= EA /= /regularize_one_corr -(Hsl Hr).
  Qed.
  Lemma corrs_total (eigh : np_eigh_t n) Rs r :
    match regularize_corrs eigh Rs r with
    | Ok _ => Rs <> [::] /\ forall A, List.In A Rs -> eigh A <> None
    | Raise e => (e = ValueError /\ Rs = [::]) \/ (e = LinAlgError /\ exists A, List.In A Rs /\ eigh A = None)
    end.
  Proof.
    rewrite /regularize_corrs.
    have : match mapM (fun A => or_raise (eigh A) LinAlgError) Rs with Ok _ => forall A, List.In A Rs -> eigh A <> None
           | Raise e => e = LinAlgError /\ exists A, List.In A Rs /\ eigh A = None end.
      elim: Rs => [//|A Rs IH] /=. case EA : (eigh A) => [dU|] /=; last by split=> //; exists A; split=> //; left.
      case: (mapM _ Rs) IH => [dec|e] /=; first by move=> H B [<-|/H //]; rewrite EA.
      by case=> -> [B [H1 H2]]; split=> //; exists B; split=> //; right.
    case: (mapM _ Rs) => [dec|e] /=; last by right. case: Rs => [|A Rs] H; [by left|by split].
  Qed.

  (** ** Correlations. *)
  Lemma psd_entry S i j : psd S -> (S i j * S i j <= S i i * S j j)%re.
  Proof.
    move=> [Hs Hq]. have Hsym : S j i = S i j by rewrite -[in LHS]Hs mxE.
    pose e (a b : R) : 'cV[R]_n := a *: delta_mx i 0 + b *: delta_mx j 0.
    have E : forall a b, qf S (e a b) = (a * a * S i i + 2 * a * b * S i j + b * b * S j j)%re.
      have Hd : forall k l, ((delta_mx k 0 : 'cV[R]_n)^T *m S *m (delta_mx l 0 : 'cV[R]_n)) 0 0 = S k l.
        move=> k l. rewrite trmx_delta -rowE -colE !mxE. by [].
      move=> a b. have Et : (e a b)^T = a *: (delta_mx i 0 : 'cV[R]_n)^T + b *: (delta_mx j 0 : 'cV[R]_n)^T by apply/matrixP => k l; rewrite !mxE.
      rewrite /qf Et /e !mulmxDl !mulmxDr -!scalemxAl -!scalemxAr. rewrite !addE !scaleE !Hd Hsym.
      move: (S i i) (S i j) (S j j) => x y z. toR. eqR. ring.
    have H : forall a b, (0 <= a * a * S i i + 2 * a * b * S i j + b * b * S j j)%re by move=> a b; rewrite -E; exact: Hq.
    have H1 := H 1%re 0%re. have H2 := H 0%re 1%re. have H3 := H (S i j) (- S i i)%re. have H4 := H (- S j j)%re (S i j).
    have H5 := H 1%re (- S i j)%re. have H6 := H (- S i j)%re 1%re.
    move: (S i i) (S i j) (S j j) H1 H2 H3 H4 H5 H6 {H E e Hsym} => x y z H1 H2 H3 H4 H5 H6.
    have Hx : (0 <= x)%re by lra. have Hz : (0 <= z)%re by lra.
    case: Hx => [Hx|Hx]; last first.
      subst x. have : (y * y = 0)%re by nra. lra.
    have : (0 <= x * (x * z - y * y))%re by nra. move=> H0. have := Rmult_le_reg_l x 0 (x * z - y * y)%re Hx. lra.
  Qed.
  Lemma corr_spec Ss : (forall S, List.In S Ss -> forall i, (0 < S i i)%re) -> refactor_to_corr Ss = Ok [seq corr S | S <- Ss].
  Proof.
    move=> H. rewrite /refactor_to_corr.
    have -> : all (fun S : 'M[R]_n => [forall i, if Rlt_dec 0 (S i i) then true else false]) Ss.
      elim: Ss H => [//|S Ss IH] H /=. apply/andP; split; first by apply/posP => i; apply: H; left.
      by apply: IH => B HB; apply: H; right.
    congr Ok. elim: Ss H => [//|S Ss IH] H /=. rewrite IH; last by move=> B HB; apply: H; right. congr (_ :: _).
    have Hp := H S (or_introl erefl). apply/matrixP => i j. rewrite !mxE /rcp sqrt_mult; try exact: Rlt_le. toR. eqR. field.
    by split; apply: Rgt_not_eq; apply: sqrt_lt_R0.
  Qed.
  Lemma corr_props S : psd S -> (forall i, (0 < S i i)%re) ->
    psd (corr S) /\ (forall i, corr S i i = 1) /\ forall i j, (-1 <= corr S i j <= 1)%re.
  Proof.
    move=> HS Hp. have Hc : psd (corr S) by rewrite -corr_eq //; exact: correlation_psd.
    have H1 : forall i, corr S i i = 1.
      move=> i. rewrite mxE sqrt_square; last exact: Rlt_le. have := Hp i. move: (S i i) => x Hx. toR. eqR. field. lra.
    split=> //; split=> // i j. have := psd_entry i j Hc. rewrite !H1. move: (corr S i j) => x Hx.
    have {}Hx : (x * x <= 1)%re by move: Hx; toR; lra. split; nra.
  Qed.
  Lemma corr_all Ss : (forall S, List.In S Ss -> psd S /\ forall i, (0 < S i i)%re) ->
    refactor_to_corr Ss = Ok [seq corr S | S <- Ss] /\
    forall S, List.In S Ss -> psd (corr S) /\ (forall i, corr S i i = 1) /\ forall i j, (-1 <= corr S i j <= 1)%re.
  Proof. move=> H. split; first by apply: corr_spec => S /H []. by move=> S /H [H1 H2]; exact: corr_props. Qed.
  Lemma realized_spec (rs : seq 'cV[R]_n) : size (get_realized_covs rs) = size rs /\ size (get_realized_vars rs) = size rs /\
    forall j C v, List.nth_error (get_realized_covs rs) j = Some C -> List.nth_error (get_realized_vars rs) j = Some v ->
      psd C /\ (\rank C <= 1)%N /\ (forall i, C i i = v i 0) /\
      exists r, List.nth_error rs j = Some r /\ forall a b, C a b = (r a ord0 * r b ord0)%re.
  Proof.
    rewrite /get_realized_covs /get_realized_vars !size_map. do 2 split=> //. elim: rs => [|r rs IH] [|j] C v //=; last exact: IH.
    case=> <- [<-]. have E : forall a b, (r *m r^T) a b = (r a ord0 * r b ord0)%re by move=> a b; rewrite mxE big_ord1 mxE.
    split; first by rewrite -{1}[r]trmxK; exact: psd_gram.
    split; first by apply: leq_trans (mxrankM_maxl _ _) _; exact: rank_leq_col.
    split; first by move=> i; rewrite E mxE. by exists r.
  Qed.
End VecRegProps.
