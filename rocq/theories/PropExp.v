(** * Properties of experiments/utils/experiment_utils.py (C37, C49-C51, C62-C66).

    Model: ExpUtils.v (exact arithmetic).  Vocabulary: SpecExp.v; [psd], [spd] in MatR.v; [factor_model], [pos_vec] in
    SpecReg.v. *)
From Coq Require Import Reals Lra Lia ZArith List String.
Set Warnings "-notation-overridden,-ambiguous-paths".
From mathcomp Require Import all_ssreflect all_algebra.
From Verif Require Import RStruct MatR Py Num Combination Spectral Regularization SpecReg RegProps RegMain EmFacts ExpUtils SpecExp ExpRoll ExpPack ExpDiag ExpLL ExpStats ExpMain.
Set Implicit Arguments.
Unset Strict Implicit.
Unset Printing Implicit Defensive.
Import GRing.Theory.
Local Open Scope ring_scope.
Delimit Scope R_scope with re.

(** C37: what rolling_window returns.  memory = m >= 1; the first entry is at row max(min_periods, 1) - 1. *)
Theorem C37_value : forall n (times : seq Z) assets (rows : seq 'cV[R]_n) m mp,
  size times = size rows -> List.NoDup times -> rows <> [::] -> (0 < m)%N ->
  let first := Z.to_nat (Z.max mp 1 - 1) in
  exists d, rolling_window times assets rows (Z.of_nat m) mp = Ok d /\ map fst d = drop first times /\
    forall t, (first <= t < size rows)%N -> exists S,
      dict_get Z.eqb d (nth Z0 times t) = Some (assets, S) /\ psd S /\
      (m = 1%N -> S = nth 0 rows t *m (nth 0 rows t)^T) /\
      ((2 <= m)%N -> S = (/ INR (minn t.+2 m))%re *: (window_sum rows m t + nth 0 rows 0 *m (nth 0 rows 0)^T)).
Proof. exact rolling_main. Qed.
Print Assumptions C37_value.

(** ... so that, once the window is full, it is the second-moment matrix of the window only if the first row is zero. *)
Theorem C37_not_the_window_mean : forall n (times : seq Z) assets (rows : seq 'cV[R]_n) m mp d t,
  size times = size rows -> List.NoDup times -> (2 <= m)%N -> (m <= t.+1)%N -> (t < size rows)%N ->
  (Z.to_nat (Z.max mp 1 - 1) <= t)%N ->
  rolling_window times assets rows (Z.of_nat m) mp = Ok d ->
  (dict_get Z.eqb d (nth Z0 times t) = Some (assets, (/ INR m)%re *: window_sum rows m t) <-> nth 0 rows 0 = 0).
Proof. exact rolling_not_mean. Qed.
Print Assumptions C37_not_the_window_mean.

Theorem C37_bad_input : forall n (times : seq Z) assets (rows : seq 'cV[R]_n) memory mp,
  (rows = [::] -> rolling_window times assets rows memory mp = Raise IndexError) /\
  ((2 <= size rows)%N -> memory = Z0 -> rolling_window times assets rows memory mp = Raise ZeroDivisionError) /\
  ((2 <= size rows)%N -> Z.lt memory 0 -> rolling_window times assets rows memory mp = Raise IndexError).
Proof. exact rolling_bad. Qed.
Print Assumptions C37_bad_input.

(** C49 *)
Theorem C49_unpack : forall A (zero : A) (row : seq A) n, (size row).*2 = (n * n.+1)%N ->
  exists S, from_row_to_covariance zero row n = Ok S /\
    (forall i j, (i < n)%N -> (j < n)%N -> S i j = S j i) /\ upper_triangle n S = row.
Proof. exact @pack_main. Qed.
Print Assumptions C49_unpack.

Theorem C49_round_trip : forall A (zero : A) n (M : nat -> nat -> A), (forall i j, (i < n)%N -> (j < n)%N -> M i j = M j i) ->
  exists S, from_row_to_covariance zero (upper_triangle n M) n = Ok S /\ forall i j, (i < n)%N -> (j < n)%N -> S i j = M i j.
Proof. exact @pack_unpack. Qed.
Print Assumptions C49_round_trip.

(** A vector of another length raises, except that a single number fills the whole matrix. *)
Theorem C49_other_lengths : forall A (zero : A) (row : seq A) n,
  ((size row).*2 <> (n * n.+1)%N -> size row <> 1%N -> from_row_to_covariance zero row n = Raise ValueError) /\
  forall v, row = [:: v] -> exists S, from_row_to_covariance zero row n = Ok S /\ forall i j, (i < n)%N -> (j < n)%N -> S i j = v.
Proof. move=> A zero row n. split; first exact: unpack_bad. move=> v ->. exact: unpack_one. Qed.
Print Assumptions C49_other_lengths.

Theorem C49_matrix : forall A (zero : A) (M : seq (seq A)) n, (forall row, List.In row M -> (size row).*2 = (n * n.+1)%N) ->
  exists Ss, from_row_matrix_to_covariance zero M n = Ok Ss /\ size Ss = size M /\
    forall t, (t < size M)%N -> let S := nth (fun _ _ => zero) Ss t in
      (forall i j, (i < n)%N -> (j < n)%N -> S i j = S j i) /\ upper_triangle n S = nth [::] M t.
Proof. exact @pack_matrix. Qed.
Print Assumptions C49_matrix.

(** C50: the call returns the dictionary it was given (same reference l), changed in place; nothing else that existed
    before is changed. *)
Theorem C50_in_place : forall n (h : heap n) l lamda keys, dict_ok h l keys ->
  exists h', add_to_diagonal h l lamda = Ok (h', l) /\ dict_ok h' l keys /\ (size h <= size h')%N /\
    (forall k, matrix_at h' l k = omap (scale_variances (1 + lamda)%R) (matrix_at h l k)) /\
    (forall l0, (l0 < size h)%N -> l0 <> l -> hget h' l0 = hget h l0).
Proof. exact add_ok. Qed.
Print Assumptions C50_in_place.

Theorem C50_calls_compound : forall n k l lamda keys (h : heap n), dict_ok h l keys ->
  exists h', add_calls k h l lamda = Ok h' /\
    (forall key, matrix_at h' l key = omap (scale_variances ((1 + lamda) ^+ k)%R) (matrix_at h l key)) /\
    (forall l0, (l0 < size h)%N -> l0 <> l -> hget h' l0 = hget h l0).
Proof. exact calls_ok. Qed.
Print Assumptions C50_calls_compound.

Theorem C50_definite : forall n c (S : 'M[R]_n), (1 < c)%re -> psd S -> (forall i, (0 < S i i)%re) -> spd (scale_variances c S).
Proof. exact scale_spd. Qed.
Print Assumptions C50_definite.

(** C51 *)
Theorem C51_gaussian : forall n (rs : seq 'cV[R]_n) (Ss : seq 'M[R]_n) ms (c : R), c <> 0 -> size (means_or0 rs ms) = size rs ->
  size Ss = size rs -> (forall S, List.In S Ss -> spd S) ->
  exists ll, log_likelihood rs Ss ms c = Ok ll /\ size ll = size rs /\
    forall t, (t < size rs)%N ->
      nth None ll t = Some (ln (normal_density (nth 0 (means_or0 rs ms) t)%R (nth 0 Ss t)%R (nth 0 rs t)%R) - INR n * ln (Rabs c))%re.
Proof. exact ll_gauss. Qed.
Print Assumptions C51_gaussian.

Theorem C51_single : forall n (rs : seq 'cV[R]_n) (Ss : seq 'M[R]_n) (ms : seq 'cV[R]_n), size ms = size rs -> size Ss = size rs ->
  log_likelihood rs Ss (Some ms) 1 =
  mapM (fun p : 'cV[R]_n * 'cV[R]_n * 'M[R]_n => single_log_likelihood p.1.1 p.2 p.1.2) (zip (zip rs ms) Ss).
Proof. exact ll_single. Qed.
Print Assumptions C51_single.

(** One covariance for all rows is the same covariance for every row. *)
Theorem C51_one_covariance : forall n (rs : seq 'cV[R]_n) (S : 'M[R]_n) ms (c : R), c <> 0 -> size (means_or0 rs ms) = size rs -> spd S ->
  log_likelihood rs [:: S] ms c = log_likelihood rs (nseq (size rs) S) ms c.
Proof. exact ll_one_cov. Qed.
Print Assumptions C51_one_covariance.

Theorem C51_errors : forall n (rs : seq 'cV[R]_n) (Ss : seq 'M[R]_n) ms (c : R),
  (size (means_or0 rs ms) <> size rs -> log_likelihood rs Ss ms c = Raise ValueError) /\
  (size (means_or0 rs ms) = size rs -> (exists2 S, S \in Ss & S \notin unitmx) -> log_likelihood rs Ss ms c = Raise LinAlgError) /\
  (size (means_or0 rs ms) = size rs -> (0 < n)%N -> Ss <> [::] -> log_likelihood rs Ss ms 0 = Raise LinAlgError) /\
  (c <> 0 -> size (means_or0 rs ms) = size rs -> (forall S, List.In S Ss -> spd S) ->
   size Ss <> size rs -> size Ss <> 1%N -> size rs <> 1%N -> log_likelihood rs Ss ms c = Raise ValueError).
Proof.
  move=> n rs Ss ms c. split; last split; last split.
  - case: ms => [ms|] /= H; [exact: ll_mismatch|by rewrite size_map in H].
  - exact: ll_singular.
  - exact: ll_zero_scale.
  - exact: ll_mismatch_cov.
Qed.
Print Assumptions C51_errors.

(** log_likelihood_sequential computes and returns nothing. *)
Theorem C51_sequential_returns_none : forall n (rs : seq 'cV[R]_n) (Ss : seq 'M[R]_n) ms (c : R),
  size (means_or0 rs ms) = size rs -> size Ss = size rs -> c <> 0 ->
  all (fun S : 'M[R]_n => S \in unitmx) Ss -> log_likelihood_sequential rs Ss ms c = Ok tt.
Proof. exact ll_seq_runs. Qed.
Print Assumptions C51_sequential_returns_none.

(** C62: every forecast is scored on the next row of returns; a forecast at the last row is left out. Item q = (k, S): the
    forecast S carries the time stamp of row k. *)
Theorem C62_low_rank : forall n k (ts : seq Z) (xs : seq 'cV[R]_n) ms mean (items : seq (nat * factors n k)),
  List.NoDup ts -> size ts = size xs -> (0 < n)%N -> xs <> [::] ->
  (forall q, List.In q items -> (q.1 < size ts)%N /\ pos_vec q.2.2) ->
  (forall k, (k < size ts)%N -> if ms is Some d then dict_get Z.eqb d (nth Z0 ts k) = Some (mean k) else mean k = 0) ->
  log_likelihood_low_rank (zip ts (map (@finite_row n) xs)) [seq (nth Z0 ts q.1, q.2) | q <- items] ms =
  Ok (scores ts xs mean [seq (q.1, factor_model q.2.1 q.2.2) | q <- items]).
Proof. exact low_rank_scores. Qed.
Print Assumptions C62_low_rank.

Theorem C62_dense : forall n eigh (ts : seq Z) (xs : seq 'cV[R]_n) ms mean (items : seq (nat * sframe n)),
  List.NoDup ts -> size ts = size xs -> (0 < n)%N -> xs <> [::] ->
  (forall q, List.In q items -> (q.1 < size ts)%N /\ exists S, s_val q.2 = Some S /\ spd S) ->
  (forall k, (k < size ts)%N -> if ms is Some d then dict_get Z.eqb d (nth Z0 ts k) = Some (mean k) else mean k = 0) ->
  log_likelihood_regularized eigh (zip ts (map (@finite_row n) xs)) [seq (nth Z0 ts q.1, q.2) | q <- items] ms None =
  Ok (scores ts xs mean [seq (q.1, odflt 0 (s_val q.2)) | q <- items]).
Proof. exact plain_scores. Qed.
Print Assumptions C62_dense.

(** With r given: the matrices scored are those that regularize_covariance yields (C31, C32, C57); its exception, if any,
    is the result. *)
Theorem C62_regularized : forall n eigh (ts : seq Z) (xs : seq 'cV[R]_n) ms mean r (Sigmas : list (Z * sframe n)) ex
    (items : seq (nat * 'M[R]_n)) cols,
  List.NoDup ts -> size ts = size xs -> (0 < n)%N -> xs <> [::] ->
  regularize_covariance eigh Sigmas r false = ([seq (nth Z0 ts q.1, Dense (cols q) (cols q) q.2) | q <- items], ex) ->
  (forall q, List.In q items -> (q.1 < size ts)%N /\ spd q.2) ->
  (forall k, (k < size ts)%N -> if ms is Some d then dict_get Z.eqb d (nth Z0 ts k) = Some (mean k) else mean k = 0) ->
  log_likelihood_regularized eigh (zip ts (map (@finite_row n) xs)) Sigmas ms (Some r) =
  if ex is Some e then Raise e else Ok (scores ts xs mean items).
Proof. exact reg_scores. Qed.
Print Assumptions C62_regularized.

(** With gaps in the returns: only the first asset decides whether a row is scored; a gap in another asset gives NaN. *)
Theorem C62_gaps : forall n k (ts : seq Z) (rows : seq nrow) ms mean (items : seq (nat * factors n k)),
  List.NoDup ts -> size ts = size rows -> (0 < n)%N -> rows <> [::] -> all (fun x : nrow => size x == n) rows ->
  (forall q, List.In q items -> (q.1 < size ts)%N /\ pos_vec q.2.2) ->
  (forall k, (k < size ts)%N -> if ms is Some d then dict_get Z.eqb d (nth Z0 ts k) = Some (mean k) else mean k = 0) ->
  log_likelihood_low_rank (zip ts rows) [seq (nth Z0 ts q.1, q.2) | q <- items] ms =
  Ok [seq (nth Z0 ts q.1, obind (fun r => Some (ln (normal_density (mean q.1) (factor_model q.2.1 q.2.2) r))) (nvec n (next_row n rows q.1)))
     | q <- items & nth None (next_row n rows q.1) 0 != None].
Proof. exact low_rank_gaps. Qed.
Print Assumptions C62_gaps.

(** C63: turnover is 252 * 100 times the mean of |w_{t+1} - w_t| / |w_t|, does not depend on the scale of the weights, and
    is zero only for constant weights. *)
Theorem C63_turnover : forall n (ws : seq 'cV[R]_n), (2 <= size ws)%N -> (forall w, w \in ws -> w != 0) ->
  turnover ws = Some (25200 * (\sum_(k < (size ws).-1) (l1 (nth 0 ws k.+1 - nth 0 ws k)%R / l1 (nth 0 ws k)%R)%re)%R / INR (size ws).-1)%re /\
  (exists v, turnover ws = Some v /\ (0 <= v)%re /\ (v = 0 <-> forall k, (k.+1 < size ws)%N -> nth 0 ws k.+1 = nth 0 ws k)) /\
  forall c : R, c <> 0 -> turnover [seq c *: w | w <- ws] = turnover ws.
Proof. move=> n ws H1 H2. split; first exact: turnover_formula. split; first exact: turnover_ok. move=> c. exact: turnover_scale. Qed.
Print Assumptions C63_turnover.

(** C64 *)
Theorem C64_ecdf : forall data : seq R,
  let: (x, y) := ecdf data in
  perm_eq x data /\ size y = size data /\
  (forall i j, (i <= j < size data)%N -> (nth 0 x i <= nth 0 x j)%re) /\
  (forall i, (i < size data)%N -> nth 0 y i = (INR i.+1 / INR (size data))%re /\
     (nth 0 y i <= fraction_le data (nth 0 x i))%re /\
     (seq.uniq data -> nth 0 y i = fraction_le data (nth 0 x i))).
Proof. exact ecdf_ok. Qed.
Print Assumptions C64_ecdf.

(** C65: the loss of a forecast is the squared Frobenius distance to r r^T for the next row r (NaN if that has gaps or
    does not exist); it is zero only for the exact forecast; an unknown time stamp raises. *)
Theorem C65_mse : forall n (ts : seq Z) (rows : seq nrow) (items : seq (nat * 'M[R]_n)),
  List.NoDup ts -> size ts = size rows -> (forall q, List.In q items -> (q.1 < size ts)%N) ->
  mse (zip ts rows) [seq (nth Z0 ts q.1, q.2) | q <- items] =
  Ok [seq (nth Z0 ts q.1, omap (fun r : 'cV[R]_n => \sum_i \sum_j (((q.2 : 'M[R]_n) i j - r i ord0 * r j ord0) ^+ 2))
                               (nvec n (next_row n rows q.1))) | q <- items].
Proof. exact mse_sum. Qed.
Print Assumptions C65_mse.

Theorem C65_unknown_time : forall n (ts : seq Z) (rows : seq nrow) t (S : 'M[R]_n) rest, size ts = size rows -> ~ List.In t ts ->
  mse (zip ts rows) ((t, S) :: rest) = Raise KeyError.
Proof. exact mse_unknown. Qed.
Print Assumptions C65_unknown_time.

(** C66: the realised covariance of a day is the sum of r r^T minus T times the outer product of the mean; it is a
    covariance, and misses the mean that the realised volatility counts. *)
Theorem C66_realised : forall n (rows : seq 'cV[R]_n), rows <> [::] ->
  realized_covariance rows = \sum_(r <- rows) (r *m r^T) - INR (size rows) *: (colmean rows *m (colmean rows)^T) /\
  psd (realized_covariance rows) /\
  forall i, (realized_vola rows i ord0 * realized_vola rows i ord0)%re =
    (realized_covariance rows i i + INR (size rows) * (colmean rows i ord0 * colmean rows i ord0))%re.
Proof. move=> n rows H. split; first exact: realized_cov_eq. split; first exact: realized_psd. move=> i. exact: realized_vola_sq. Qed.
Print Assumptions C66_realised.

(** ** Cases that meet the hypotheses. *)
Definition c1 (x : R) : 'cV[R]_1 := const_mx x.
Definition c2 (x y : R) : 'cV[R]_2 := \col_i (if i == ord0 then x else y).
Lemma c1_ne (x : R) : x <> 0 -> c1 x != 0.
Proof. move=> H. apply/eqP => E. have := congr1 (fun v : 'cV[R]_1 => v ord0 ord0) E. by rewrite !mxE. Qed.
Lemma one_spd n : spd (1%:M : 'M[R]_n).
Proof.
  have ->: (1%:M : 'M[R]_n) = factor_model (0 : 'M[R]_(n, 0)) (const_mx R1).
  { rewrite /factor_model mul0mx add0r trmx_const. apply/matrixP => i j. by rewrite !mxE. }
  apply: fm_spd => i. rewrite mxE. exact: Rlt_0_1.
Qed.

(** Returns 1, 2, 3 with memory 2: at the third row the window is {2, 3}; the result is (1 + 4 + 9) / 2. *)
Definition ex_times : seq Z := [:: Z.of_nat 5; Z.of_nat 6; Z.of_nat 8].
Definition ex_rows : seq 'cV[R]_1 := [:: c1 1%re; c1 2%re; c1 3%re].
Example ex_nodup : List.NoDup ex_times.
Proof. by repeat constructor => /=; intuition. Qed.
Example C37_met : exists d S, rolling_window ex_times [:: "a"%string] ex_rows (Z.of_nat 2) (Z.of_nat 1) = Ok d /\
  map fst d = ex_times /\ dict_get Z.eqb d (Z.of_nat 8) = Some ([:: "a"%string], S) /\ S ord0 ord0 = 7%re /\
  S <> (/ INR 2)%re *: window_sum ex_rows 2 2.
Proof.
  have H1 := ex_nodup. have H2: ex_rows <> [::] by [].
  have [d [E1 [E2 E3]]] := C37_value [:: "a"%string] (m := 2) (Z.of_nat 1) (erefl : size ex_times = size ex_rows) H1 H2 isT.
  have [S [E4 [_ [_ E5]]]] := E3 2%N isT. exists d, S. split=> //. split; first by rewrite E2. split=> //. split.
  - rewrite (E5 isT) scaleE addE /window_sum /= summxE big_mkcond !big_ord_recl big_ord0 /= !mxE !big_ord1 !mxE. toR. rewrite /=. field.
  - move=> E. have := proj1 (C37_not_the_window_mean (t := 2%N) (assets := [:: "a"%string]) (mp := (Z.of_nat 1)) (erefl : size ex_times = size ex_rows) H1 (m := 2) isT isT isT isT E1).
    rewrite E4 E => /(_ erefl) /eqP. have /negP := c1_ne R1_neq_R0. by [].
Qed.
Example C49_met : exists S, from_row_to_covariance 0%N [:: 1; 2; 3; 4; 5; 6]%N 3 = Ok S /\ S 1%N 0%N = 2%N /\ S 2%N 1%N = 5%N.
Proof. eexists; split; first reflexivity. by []. Qed.
Example C49_matrix_met : exists Ss, from_row_matrix_to_covariance 0%N [:: [:: 1; 2; 3]; [:: 4; 5; 6]]%N 2 = Ok Ss /\ size Ss = 2%N.
Proof. by eexists; split; first reflexivity. Qed.

(** A dictionary with two keys, one of which shares its array with another variable. *)
Definition ex_heap : heap 2 := [:: Dict _ [:: (Z0, 2%N); (Z.of_nat 1, 1%N)]; Arr (1%:M : 'M[R]_2); Arr (const_mx R1 : 'M[R]_2)].
Example ex_dict : dict_ok ex_heap 0 [:: Z0; Z.of_nat 1].
Proof.
  exists [:: (Z0, 2%N); (Z.of_nat 1, 1%N)]. do 2 split=> //. split; first by repeat constructor => /=; intuition.
  move=> k a /= [[_ <-]|[[_ <-]|[]]]; by eexists.
Qed.
Example C50_met : exists h', add_calls 2 ex_heap 0 (1 / 2)%re = Ok h' /\
  (exists M, matrix_at h' 0 Z0 = Some M /\ M ord0 ord0 = (9 / 4)%re /\ M ord0 (lift ord0 ord0) = 1%re) /\
  hget h' 2 = Some (Arr (const_mx R1 : 'M[R]_2)).
Proof.
  have [h' [E1 [E2 E3]]] := C50_calls_compound 2 (1 / 2)%re ex_dict. exists h'. split=> //. split; last by rewrite E3.
  rewrite E2 /=. eexists; split; first by []. rewrite !mxE /= expr2. split=> //. toR. field.
Qed.
Example C50_definite_met : spd (scale_variances 2%re (const_mx R1 : 'M[R]_2)).
Proof.
  apply: C50_definite; [lra| |by move=> i; rewrite mxE; exact: Rlt_0_1].
  have ->: (const_mx R1 : 'M[R]_2) = const_mx R1 *m (const_mx R1 : 'cV[R]_2)^T.
  { apply/matrixP => i j. rewrite !mxE big_ord1 !mxE. toR. ring. }
  exact: outer_psd.
Qed.

Example C51_met : exists ll, log_likelihood [:: c2 1%re 2%re; c2 0 3%re] [:: 1%:M; 1%:M] None 100%re = Ok ll /\ size ll = 2%N /\
  nth None ll 1 = Some (ln (normal_density 0%R 1%:M%R (c2 0 3)) - INR 2 * ln (Rabs 100))%re.
Proof.
  have Hc: (100%re : R) <> 0 by toR; lra.
  have [|ll [E1 [E2 E3]]] := @C51_gaussian 2 [:: c2 1%re 2%re; c2 0 3%re] [:: 1%:M; 1%:M] None 100%re Hc erefl erefl.
  - by move=> S [<-|[<-|[]]]; exact: one_spd.
  - exists ll. split=> //. split=> //. by rewrite E3.
Qed.
Example C51_errors_met : log_likelihood [:: c2 1%re 2%re] [:: 0] None 1%re = Raise LinAlgError.
Proof.
  have [_ [H _]] := C51_errors [:: c2 1%re 2%re] [:: 0] None 1%re. apply: H => //. exists 0; first by rewrite inE.
  by rewrite unitmxE det0 unitr0.
Qed.

(** Three rows, forecasts at the first and at the last row: only the first is scored, on the second row. *)
Example C62_met :
  log_likelihood_low_rank (zip ex_times (map (@finite_row 1) ex_rows))
    [:: (Z.of_nat 5, ((1%:M : 'M[R]_1), c1 1%re)); (Z.of_nat 8, ((1%:M : 'M[R]_1), c1 2%re))] None =
  Ok [:: (Z.of_nat 5, Some (ln (normal_density 0 (factor_model (1%:M : 'M[R]_1) (c1 1%re)) (c1 2%re))))].
Proof.
  pose items : seq (nat * factors 1 1) := [:: (0%N, (1%:M, c1 1%re)); (2%N, (1%:M, c1 2%re))].
  apply: (@C62_low_rank 1 1 ex_times ex_rows None (fun _ => 0) items ex_nodup erefl isT) => //.
  by move=> q [<-|[<-|[]]]; split=> // i; rewrite mxE; toR; lra.
Qed.
Example C62_regularized_met :
  log_likelihood_regularized (@eigh_exact 1) (zip ex_times (map (@finite_row 1) ex_rows))
    [:: (Z.of_nat 5, mkS [:: "A"%string] (Some (4%re%:M))); (Z.of_nat 8, mkS [:: "A"%string] (Some (9%re%:M)))] None (Some (Zpos xH)) =
  Ok [:: (Z.of_nat 5, Some (ln (normal_density 0 (4%re%:M) (c1 2%re))))].
Proof.
  have Hs : forall x : R, (0 < x)%re -> spd (x%:M : 'M[R]_1).
  { move=> x Hx. have -> : (x%:M : 'M[R]_1) = factor_model (0 : 'M[R]_(1, 1)) (c1 x).
      by rewrite /factor_model mul0mx add0r -diag_const_mx; congr diag_mx; apply/rowP => i; rewrite !mxE.
    apply: fm_spd => i. by rewrite mxE. }
  pose Sg := [:: (Z.of_nat 5, mkS [:: "A"%string] (Some ((4%re : R)%:M : 'M[R]_1))); (Z.of_nat 8, mkS [:: "A"%string] (Some (9%re%:M)))].
  case E : (regularize_covariance (@eigh_exact 1) Sg (Zpos xH) false) => [its ex].
  have Hsym : forall t fr (S : 'M[R]_1), List.In (t, fr) Sg -> s_val fr = Some S -> sym S.
  { move=> t fr S [[_ <-]|[[_ <-]|[]]] [<-]; apply: (proj1 (Hs _ _)); lra. }
  have := main_outcome (@eigh_exact_total 1) Hsym E. case: ex E => [e|] E.
  { case=> _ [d1 [t [fr [d2 [E1 [_ [[]|[]]]]]]]]; first by lia.
    have: List.In (t, fr) Sg by rewrite E1 List.in_app_iff; right; left.
    case=> [[_ <-]|[[_ <-]|[]]]; eexists; split=> // i; rewrite mxE (ord1 i) eqxx mulr1n; lra. }
  case=> Em _. case: its Em E => [//|[t1 i1] [//|[t2 i2] [|//]]] /= [-> ->] E.
  have H1 : i1 = Dense [:: "A"%string] [:: "A"%string] (4%re%:M).
  { have [|M [-> [_ [_ ->]]]] := main_factor (j := 0) (@eigh_exact_ok 1) E erefl erefl erefl _ => //. apply: spd_psd. apply: Hs. lra. }
  have H2 : i2 = Dense [:: "A"%string] [:: "A"%string] (9%re%:M).
  { have [|M [-> [_ [_ ->]]]] := main_factor (j := 1) (@eigh_exact_ok 1) E erefl erefl erefl _ => //. apply: spd_psd. apply: Hs. lra. }
  rewrite H1 H2 in E.
  apply: (@C62_regularized 1 _ ex_times ex_rows None (fun _ => 0) _ _ None [:: (0%N, 4%re%:M); (2%N, 9%re%:M)] (fun _ => [:: "A"%string]) ex_nodup erefl isT) => //.
  by move=> q [<-|[<-|[]]]; split=> //; apply: Hs; rewrite /=; lra.
Qed.
Example C62_gaps_met :
  log_likelihood_low_rank (zip ex_times [:: [:: None; None]; [:: Some R1; None]; [:: None; Some R1]])
    [:: (Z.of_nat 5, ((1%:M : 'M[R]_2), c2 1%re 1%re)); (Z.of_nat 6, ((1%:M : 'M[R]_2), c2 1%re 1%re))] None =
  Ok [:: (Z.of_nat 5, None)].
Proof.
  pose items : seq (nat * factors 2 2) := [:: (0%N, (1%:M, c2 1%re 1%re)); (1%N, (1%:M, c2 1%re 1%re))].
  have H: forall q, List.In q items -> (q.1 < 3)%N /\ pos_vec q.2.2.
  { by move=> q [<-|[<-|[]]]; split=> // i; rewrite mxE; case: ifP => _; toR; lra. }
  have := @C62_gaps 2 2 ex_times [:: [:: None; None]; [:: Some R1; None]; [:: None; Some R1]] None (fun _ => 0) items ex_nodup erefl isT.
  rewrite /items /= => -> //.
Qed.
Example C63_met : turnover ex_rows = Some 18900%re.
Proof.
  have H: forall w, w \in ex_rows -> w != 0.
  { move=> w. rewrite !inE => /or3P [] /eqP ->; apply: c1_ne; toR; lra. }
  have [-> _] := C63_turnover (isT : (2 <= size ex_rows)%N) H.
  congr Some. rewrite /= !big_ord_recl big_ord0 /l1 /= !big_ord1 !mxE. toR.
  rewrite !Rabs_right; try lra. all: toR; lra.
Qed.
Example C65_met : mse (zip ex_times [:: [:: Some R1]; [:: Some 2%re]; [:: None]]) [:: (Z.of_nat 5, 1%:M : 'M[R]_1); (Z.of_nat 6, 1%:M)] =
  Ok [:: (Z.of_nat 5, Some 9%re); (Z.of_nat 6, None)].
Proof.
  have := @C65_mse 1 ex_times [:: [:: Some R1]; [:: Some 2%re]; [:: None]] [:: (0%N, 1%:M); (1%N, 1%:M)] ex_nodup erefl.
  rewrite /= => -> //; last by move=> q [<-|[<-|[]]].
  congr (Ok [:: (_, Some _); _]). rewrite !big_ord1 !mxE /= mulr1n expr2. toR. ring.
Qed.
Example C66_met : realized_covariance ex_rows ord0 ord0 = 2%re.
Proof.
  have H: ex_rows <> [::] by []. have [E _] := C66_realised H.
  have Em: colmean ex_rows = c1 2%re.
  { rewrite /colmean !big_cons big_nil. apply/colP => i. rewrite scaleE !addE !mxE. toR. rewrite /=. field. }
  rewrite E subE scaleE Em !big_cons big_nil !addE !mxE !big_ord1 !mxE. toR. rewrite /=. ring.
Qed.
