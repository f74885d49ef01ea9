(** * Lemmas in the form used by PropExp.v. *)
From Coq Require Import Reals ZArith String List Lia Lra.
Set Warnings "-notation-overridden,-ambiguous-paths".
From mathcomp Require Import all_ssreflect all_algebra.
From mathcomp.zify Require Import zify_ssreflect.
From Verif Require Import RStruct MatR Spectral Num Py ListFacts CombFacts Combination Regularization SpecReg RegProps EmFacts ExpUtils SpecExp ExpRoll ExpPack ExpDiag ExpLL ExpStats.
Set Implicit Arguments.
Unset Strict Implicit.
Unset Printing Implicit Defensive.
Import GRing.Theory.
Local Open Scope ring_scope.
Delimit Scope R_scope with re.

Lemma rolling_main n (times : seq Z) assets (rows : seq 'cV[R]_n) m mp :
  size times = size rows -> List.NoDup times -> rows <> [::] -> (0 < m)%N ->
  let first := Z.to_nat (Z.max mp 1 - 1) in
  exists d, rolling_window times assets rows (Z.of_nat m) mp = Ok d /\ map fst d = drop first times /\
    forall t, (first <= t < size rows)%N -> exists S,
      dict_get Z.eqb d (nth Z0 times t) = Some (assets, S) /\ psd S /\
      (m = 1%N -> S = nth 0 rows t *m (nth 0 rows t)^T) /\
      ((2 <= m)%N -> S = (/ INR (minn t.+2 m))%re *: (window_sum rows m t + nth 0 rows 0 *m (nth 0 rows 0)^T)).
Proof.
  move=> Hsz Hnd Hne Hm first. have [d [E [Hk Hd]]] := rolling_closed assets mp Hsz Hnd Hne Hm.
  exists d; do ![split=> //] => t Ht. exists (roll_value rows m t); split; first exact: Hd. split; first exact: roll_psd.
  split=> [->|H]; rewrite /roll_value /=; first by rewrite window1. by have ->: (m == 1)%N = false by apply/eqP; lia.
Qed.
Lemma rolling_not_mean n (times : seq Z) assets (rows : seq 'cV[R]_n) m mp d t :
  size times = size rows -> List.NoDup times -> (2 <= m)%N -> (m <= t.+1)%N -> (t < size rows)%N ->
  (Z.to_nat (Z.max mp 1 - 1) <= t)%N ->
  rolling_window times assets rows (Z.of_nat m) mp = Ok d ->
  (dict_get Z.eqb d (nth Z0 times t) = Some (assets, (/ INR m)%re *: window_sum rows m t) <-> nth 0 rows 0 = 0).
Proof.
  move=> Hsz Hnd Hm Hmt Ht Hf E. have Hne: rows <> [::] by move=> H; move: Ht; rewrite H.
  have Hm0: (0 < m)%N by lia.
  have [d' [E' [_ Hd]]] := rolling_closed assets mp Hsz Hnd Hne Hm0. move: E; rewrite E' => -[<-].
  rewrite Hd ?Hf // -(roll_is_mean rows Hm Hmt). by split=> [[]|->].
Qed.
Lemma rolling_bad n (times : seq Z) assets (rows : seq 'cV[R]_n) memory mp :
  (rows = [::] -> rolling_window times assets rows memory mp = Raise IndexError) /\
  ((2 <= size rows)%N -> memory = Z0 -> rolling_window times assets rows memory mp = Raise ZeroDivisionError) /\
  ((2 <= size rows)%N -> Z.lt memory 0 -> rolling_window times assets rows memory mp = Raise IndexError).
Proof.
  split=> [->//|]. case: rows => [|r0 [|r1 rows]] //; split=> // _.
  - by move=> ->; rewrite /rolling_window loop_zero.
  - by move=> H; rewrite /rolling_window loop_neg.
Qed.

Section Pack.
  Context {A : Type} (zero : A).
  Lemma pack_main (row : seq A) n : (size row).*2 = (n * n.+1)%N ->
    exists S, from_row_to_covariance zero row n = Ok S /\
      (forall i j, (i < n)%N -> (j < n)%N -> S i j = S j i) /\ upper_triangle n S = row.
  Proof. exact: unpack_ok. Qed.
  Lemma pack_matrix (M : seq (seq A)) n : (forall row, List.In row M -> (size row).*2 = (n * n.+1)%N) ->
    exists Ss, from_row_matrix_to_covariance zero M n = Ok Ss /\ size Ss = size M /\
      forall t, (t < size M)%N -> let S := nth (fun _ _ => zero) Ss t in
        (forall i j, (i < n)%N -> (j < n)%N -> S i j = S j i) /\ upper_triangle n S = nth [::] M t.
  Proof.
    elim: M => [|row M IH] H; first by exists [::].
    have [S [E [H1 H2]]] := unpack_ok zero (H row (or_introl erefl)).
    have [Ss [E' [Hs Ht]]] := IH (fun r Hr => H r (or_intror Hr)).
    exists (S :: Ss). rewrite /from_row_matrix_to_covariance /= E /=. rewrite /from_row_matrix_to_covariance in E'. rewrite E' /=.
    split=> //; split; first by rewrite Hs. by case=> [|t] //= Hlt; apply: Ht.
  Qed.
End Pack.

Section LLmain.
  Context (n : nat).
  Notation vec := 'cV[R]_n.
  Notation mat := 'M[R]_n.

  Lemma spd_units (Ss : seq mat) : (forall S, List.In S Ss -> spd S) -> all (fun S => S \in unitmx) Ss.
  Proof. elim: Ss => [//|S Ss IH] H /=. rewrite (spd_unit (H S (or_introl erefl))) IH // => S' H'. by apply: H; right. Qed.

  Lemma ll_gauss (rs : seq vec) (Ss : seq mat) ms (c : R) : c <> 0 -> size (means_or0 rs ms) = size rs -> size Ss = size rs ->
    (forall S, List.In S Ss -> spd S) ->
    exists ll, log_likelihood rs Ss ms c = Ok ll /\ size ll = size rs /\
      forall t, (t < size rs)%N ->
        nth None ll t = Some (ln (normal_density (nth 0 (means_or0 rs ms) t)%R (nth 0 Ss t)%R (nth 0 rs t)%R) - INR n * ln (Rabs c))%re.
  Proof.
    move=> Hc Hm HS Hspd. rewrite ll_general //; last exact: spd_units.
    have Hz: size (zip rs (means_or0 rs ms)) = size Ss by rewrite size_zip Hm minnn HS.
    rewrite /broadcast Hz eqxx /=. eexists; split; first by []. split; first by rewrite size_map size_zip Hz minnn HS.
    move=> t Ht. rewrite (nth_map ((0, 0), 0)); last by rewrite size_zip Hz minnn HS.
    rewrite nth_zip // nth_zip //= ll_density //.
    have Ht': (t < size Ss)%N by rewrite HS. apply: Hspd. elim: (Ss) t Ht' {Ht Hz HS} => [//|S Ss' IH] [|t] //= H; [by left|right; exact: IH].
  Qed.
  Lemma ll_one_cov (rs : seq vec) (S : mat) ms (c : R) : c <> 0 -> size (means_or0 rs ms) = size rs -> spd S ->
    log_likelihood rs [:: S] ms c = log_likelihood rs (nseq (size rs) S) ms c.
  Proof.
    move=> Hc Hm HS. rewrite !ll_general //=; last by rewrite (spd_unit HS). 2: by rewrite all_nseq (spd_unit HS) orbT.
    have Hz: size (zip rs (means_or0 rs ms)) = size rs by rewrite size_zip Hm minnn.
    rewrite /broadcast size_nseq Hz eqxx /=. case: ifP => [/eqP E|_].
    - move: Hz. rewrite E. by case: (zip _ _) => [|x [|y l]].
    - move: (zip rs (means_or0 rs ms)) Hz => l Hz. have ->: zip l (nseq (size rs) S) = [seq (x, S) | x <- l].
      { rewrite -Hz. elim: l {Hz} => [//|x l IH] /=. by rewrite IH. }
      by case: l Hz => [|x [|y l]].
  Qed.
  Lemma ll_mismatch (rs : seq vec) (Ss : seq mat) (ms : seq vec) (c : R) : size ms <> size rs -> log_likelihood rs Ss (Some ms) c = Raise ValueError.
  Proof. move=> H. rewrite /log_likelihood. by case: eqP. Qed.
  Lemma ll_mismatch_cov (rs : seq vec) (Ss : seq mat) (ms : option (seq vec)) (c : R) : c <> 0 -> size (means_or0 rs ms) = size rs ->
    (forall S, List.In S Ss -> spd S) -> size Ss <> size rs -> size Ss <> 1%N -> size rs <> 1%N -> log_likelihood rs Ss ms c = Raise ValueError.
  Proof.
    move=> Hc Hm Hspd H1 H2 H3. rewrite ll_general //; last exact: spd_units.
    have Hz: size (zip rs (means_or0 rs ms)) = size rs by rewrite size_zip Hm minnn.
    rewrite /broadcast Hz. case: eqP => [E|_]; first by case: H1. move: (zip _ _) Hz => l Hz.
    by case: l Hz H3 => [|x [|y l]] /= <-; case: (Ss) H2 => [|a [|b s]].
  Qed.

  Lemma finite_size (x : vec) : size (finite_row x) = n.
  Proof. by rewrite size_map size_enum_ord. Qed.
  Lemma nvec_finite (x : vec) : nvec n (finite_row x) = Some x.
  Proof.
    rewrite /nvec. have ->: all (fun v => v != None) (finite_row x) by apply/allP => v /mapP [i _ ->].
    congr Some. apply/colP => i. rewrite mxE /finite_row (nth_map i) ?size_enum_ord //. by rewrite nth_ord_enum.
  Qed.
  Lemma first_finite (x : vec) : (0 < n)%N -> nth None (finite_row x) 0 != None.
  Proof. move=> Hn. by rewrite /finite_row (nth_map (Ordinal Hn)) // size_enum_ord. Qed.
  Lemma next_finite (xs : seq vec) k : next_row n (map (@finite_row n) xs) k =
    if (k.+1 < size xs)%N then finite_row (nth 0 xs k.+1) else nseq n None.
  Proof.
    rewrite /next_row. case: ifP => H; first by rewrite (nth_map 0).
    by rewrite nth_default // size_map leqNgt H.
  Qed.


  Lemma frame_scores (ts : seq Z) (xs : seq vec) (ms : option (list (Z * vec))) (mean : nat -> vec) (items : seq (nat * mat)) :
    List.NoDup ts -> size ts = size xs -> (0 < n)%N ->
    (forall q, List.In q items -> (q.1 < size ts)%N /\ spd q.2) ->
    (forall k, (k < size ts)%N -> if ms is Some d then dict_get Z.eqb d (nth Z0 ts k) = Some (mean k) else mean k = 0) ->
    ll_frame_loop (shift_up n (zip ts (map (@finite_row n) xs))) ms [seq (nth Z0 ts q.1, q.2) | q <- items] = Ok (scores ts xs mean items).
  Proof.
    move=> Hnd Hs Hn Hit Hms. rewrite (frame_loop_ok (mean := mean)) //; try by rewrite size_map.
    - congr Ok. rewrite /scores. elim: items Hit => [//|[k S] items IH] Hit /=.
      have [/= Hk HS] := Hit (k, S) (or_introl erefl). rewrite next_finite Hs.
      have IH' := IH (fun q H => Hit q (or_intror H)). rewrite Hs in IH'. case: (boolP (k.+1 < size xs)%N) => Hlt.
      + rewrite first_finite //= next_finite Hlt nvec_finite /= ll_density // IH' //.
      + have ->: nth None (nseq n None) 0 = (None : option R) by case: (n). by rewrite eqxx /= IH'.
    - by apply/allP => r /mapP [x _ ->]; rewrite finite_size.
    - by move=> q /Hit [H1 H2]; split=> //; apply: spd_unit.
  Qed.

  Lemma low_rank_scores k (ts : seq Z) (xs : seq vec) ms mean (items : seq (nat * factors n k)) :
    List.NoDup ts -> size ts = size xs -> (0 < n)%N -> xs <> [::] ->
    (forall q, List.In q items -> (q.1 < size ts)%N /\ pos_vec q.2.2) ->
    (forall k, (k < size ts)%N -> if ms is Some d then dict_get Z.eqb d (nth Z0 ts k) = Some (mean k) else mean k = 0) ->
    log_likelihood_low_rank (zip ts (map (@finite_row n) xs)) [seq (nth Z0 ts q.1, q.2) | q <- items] ms =
    Ok (scores ts xs mean [seq (q.1, factor_model q.2.1 q.2.2) | q <- items]).
  Proof.
    move=> Hnd Hs Hn Hne Hit Hms. rewrite /log_likelihood_low_rank.
    case E: (zip ts (map (@finite_row n) xs)) => [|p l]; first by case: ts xs Hs Hne E {Hnd Hit Hms} => [|? ?] [|? ?].
    rewrite -E -map_comp. rewrite -(frame_scores (ms := ms)) //; first by rewrite -map_comp.
    move=> q. change (@map (nat * factors n k) (nat * mat)) with (@List.map (nat * factors n k) (nat * mat)). rewrite List.in_map_iff => -[q' [<- /Hit [H1 H2]]]; split=> //=. exact: fm_spd.
  Qed.

  Lemma low_rank_gaps k (ts : seq Z) (rows : seq nrow) ms mean (items : seq (nat * factors n k)) :
    List.NoDup ts -> size ts = size rows -> (0 < n)%N -> rows <> [::] -> all (fun x : nrow => size x == n) rows ->
    (forall q, List.In q items -> (q.1 < size ts)%N /\ pos_vec q.2.2) ->
    (forall k, (k < size ts)%N -> if ms is Some d then dict_get Z.eqb d (nth Z0 ts k) = Some (mean k) else mean k = 0) ->
    log_likelihood_low_rank (zip ts rows) [seq (nth Z0 ts q.1, q.2) | q <- items] ms =
    Ok [seq (nth Z0 ts q.1, obind (fun r => Some (ln (normal_density (mean q.1) (factor_model q.2.1 q.2.2) r))) (nvec n (next_row n rows q.1)))
       | q <- items & nth None (next_row n rows q.1) 0 != None].
  Proof.
    move=> Hnd Hs Hn Hne Hr Hit Hms. rewrite /log_likelihood_low_rank.
    case E: (zip ts rows) => [|p l]; first by case: ts rows Hs Hne E {Hnd Hit Hms Hr} => [|? ?] [|? ?].
    rewrite -E -map_comp. have ->: [seq ((fun p0 => (p0.1, p0.2.1 *m (p0.2.1)^T + diag_mx (p0.2.2)^T)) \o (fun q => (nth Z0 ts q.1, q.2))) i | i <- items]
      = [seq (nth Z0 ts q.1, q.2) | q <- [seq (q.1, factor_model q.2.1 q.2.2) | q <- items]] by rewrite -map_comp.
    rewrite (frame_loop_ok (mean := mean)) //; last first.
    { move=> q. change (@map (nat * factors n k) (nat * mat)) with (@List.map (nat * factors n k) (nat * mat)). rewrite List.in_map_iff => -[q' [<- /Hit [H1 H2]]]; split=> //=. exact: spd_unit (fm_spd _ H2). }
    congr Ok. elim: items Hit => [//|q items IH] Hit /=. have IH' := IH (fun q H => Hit q (or_intror H)).
    have [_ Hq] := Hit q (or_introl erefl).
    case: ifP => _ //=. rewrite IH'. congr (_ :: _). congr (_, _). case: (nvec n _) => [r|//] /=. by rewrite ll_density //; apply: fm_spd.
  Qed.

  Lemma plain_scores eigh (ts : seq Z) (xs : seq vec) ms mean (items : seq (nat * sframe n)) :
    List.NoDup ts -> size ts = size xs -> (0 < n)%N -> xs <> [::] ->
    (forall q, List.In q items -> (q.1 < size ts)%N /\ exists S, s_val q.2 = Some S /\ spd S) ->
    (forall k, (k < size ts)%N -> if ms is Some d then dict_get Z.eqb d (nth Z0 ts k) = Some (mean k) else mean k = 0) ->
    log_likelihood_regularized eigh (zip ts (map (@finite_row n) xs)) [seq (nth Z0 ts q.1, q.2) | q <- items] ms None =
    Ok (scores ts xs mean [seq (q.1, odflt 0 (s_val q.2)) | q <- items]).
  Proof.
    move=> Hnd Hs Hn Hne Hit Hms. rewrite /log_likelihood_regularized.
    case E: (zip ts (map (@finite_row n) xs)) => [|p l]; first by case: ts xs Hs Hne E {Hnd Hit Hms} => [|? ?] [|? ?].
    rewrite -E. have ->: mapM (fun p : Z * sframe n => do S <- or_raise (s_val p.2) ValueError; Ok (p.1, S)) [seq (nth Z0 ts q.1, q.2) | q <- items]
      = Ok [seq (nth Z0 ts q.1, q.2) | q <- [seq (q.1, odflt 0 (s_val q.2)) | q <- items]].
    { elim: items Hit => [//|q items IH] Hit /=. have [_ [S [ES HS]]] := Hit q (or_introl erefl). rewrite ES /= IH //. by move=> q' Hq'; apply: Hit; right. }
    rewrite [bind _ _]/=. apply: (frame_scores (ms := ms)) => //.
    move=> q. change (@map (nat * sframe n) (nat * mat)) with (@List.map (nat * sframe n) (nat * mat)). rewrite List.in_map_iff => -[q' [<- /Hit [H1 [S [ES HS]]]]]; split=> //=. by rewrite ES.
  Qed.

  Lemma reg_scores eigh (ts : seq Z) (xs : seq vec) ms mean r (Sigmas : list (Z * sframe n)) ex (items : seq (nat * mat)) cols :
    List.NoDup ts -> size ts = size xs -> (0 < n)%N -> xs <> [::] ->
    regularize_covariance eigh Sigmas r false = ([seq (nth Z0 ts q.1, Dense (cols q) (cols q) q.2) | q <- items], ex) ->
    (forall q, List.In q items -> (q.1 < size ts)%N /\ spd q.2) ->
    (forall k, (k < size ts)%N -> if ms is Some d then dict_get Z.eqb d (nth Z0 ts k) = Some (mean k) else mean k = 0) ->
    log_likelihood_regularized eigh (zip ts (map (@finite_row n) xs)) Sigmas ms (Some r) =
    if ex is Some e then Raise e else Ok (scores ts xs mean items).
  Proof.
    move=> Hnd Hs Hn Hne HR Hit Hms. rewrite /log_likelihood_regularized.
    case E: (zip ts (map (@finite_row n) xs)) => [|p l]; first by case: ts xs Hs Hne E {Hnd HR Hit Hms} => [|? ?] [|? ?].
    rewrite -E HR /gen_then -map_comp.
    rewrite (eq_map (f2 := fun q : nat * mat => (nth Z0 ts q.1, q.2))) //.
    by rewrite (frame_scores (ms := ms) Hnd Hs Hn Hit Hms) /=.
  Qed.
End LLmain.
