(** * Properties of experiments/utils/factor_model.py (C46, C96-C99).

    Model: FactorModel.v (exact arithmetic, no NaN).  Vocabulary: SpecFactor.v.  cvx.linalg.pca and the optimiser are arguments: the
    theorems hold for all of them (with the stated contract). *)
From Coq Require Import Reals Lra ZArith String List Lia.
Set Warnings "-notation-overridden,-ambiguous-paths".
From mathcomp Require Import all_ssreflect all_algebra.
From Verif Require Import RStruct MatR Num Py Ewma Spec Combination SpecComb RealLA SpecCombR FromEwmas SpecFrom ExpUtils SpecExp FactorModel SpecFactor FactorCov FactorLoop FactorItems FactorItem FactorPrefix FactorFull FactorLive FactorFinal FactorEx FactorWrap.
Set Implicit Arguments.
Unset Strict Implicit.
Unset Printing Implicit Defensive.
Import GRing.Theory.
Local Open Scope ring_scope.
Delimit Scope R_scope with re.
Delimit Scope Z_scope with z.

Notation halflives := (seq (option xr * option xr)).
Notation exposures n k := (seq 'cV[R]_n -> res 'M[R]_(k, n)).

(** C46: a run that completes emits every date from position [memory] on, once and in order; a run that stops emits an initial
    segment of them which ends at a block boundary. *)
Theorem C46_tiling : forall n k label (pca : exposures n k) (pairs : halflives) (slv : solver (RLA k (size pairs))) uf memory times rows,
  factor_setting k label pairs uf memory times rows -> (3 * k + 8 <= memory)%N -> all_early pca rows uf memory (size times) ->
  let g := construct_cmiewma_factor_model label pca slv times rows pairs uf memory in
  (g.2 = None -> map (@f_time n k) g.1 = drop memory times) /\
  (forall e, g.2 = Some e -> exists2 c, (memory + c * uf < size times)%N & map (@f_time n k) g.1 = take (c * uf) (drop memory times)).
Proof. exact tiling'. Qed.
Print Assumptions C46_tiling.

(** Factors that start to move late: dates can be missing at the beginning of a block, but the order stays, and a completed run
    has the last date of every block. *)
Theorem C46_order : forall n k label (pca : exposures n k) (pairs : halflives) (slv : solver (RLA k (size pairs))) uf memory times rows,
  factor_setting k label pairs uf memory times rows ->
  let g := construct_cmiewma_factor_model label pca slv times rows pairs uf memory in
  exists ps, map (@f_time n k) g.1 = [seq nth Z0 times p | p <- ps] /\ sorted ltn ps /\
    (forall p, p \in ps -> (memory <= p < size times)%N) /\
    (g.2 = None -> forall p, (memory <= p < size times)%N -> p.+1 = size times \/ (uf %| p.+1 - memory)%N -> p \in ps).
Proof. exact order'. Qed.
Print Assumptions C46_order.

(** What an item holds: exposures from the [memory] rows strictly before its block, idiosyncratic variances and factor covariance
    of the rows up to its date. *)
Theorem C46_contents : forall n k label (pca : exposures n k) (pairs : halflives) (slv : solver (RLA k (size pairs))) uf memory times rows i,
  factor_setting k label pairs uf memory times rows -> returns_feasible slv ->
  List.In i (construct_cmiewma_factor_model label pca slv times rows pairs uf memory).1 ->
  exists p, (memory <= p < size times)%N /\ f_time i = nth Z0 times p /\
    pca (train_rows rows memory (block_start uf memory p)) = Ok (f_exposure i) /\
    f_diag i = \col_a idio (f_exposure i) rows p a /\
    spd (f_cov i) /\ exists w F, feasible (size pairs) w /\ expert_factors (f_exposure i) times rows pairs p F /\
      invmx (f_cov i) = avg_factor (size pairs) F w *m (avg_factor (size pairs) F w)^T.
Proof. exact contents'. Qed.
Print Assumptions C46_contents.

(** When a run completes. *)
Theorem C46_live : forall n k label (pca : exposures n k) (pairs : halflives) (slv : solver (RLA k (size pairs))) uf memory times rows,
  factor_setting k label pairs uf memory times rows -> (3 * k + 8 <= memory)%N -> pairs <> [::] -> returns_optimal slv ->
  (forall h p, (exists w, optimal p w) -> slv h p <> None) ->
  (forall i, (memory + i * uf < size times)%N -> healthy_block pca times rows pairs uf memory (memory + i * uf)) ->
  let g := construct_cmiewma_factor_model label pca slv times rows pairs uf memory in
  g.2 = None /\ map (@f_time n k) g.1 = drop memory times.
Proof. exact live'. Qed.
Print Assumptions C46_live.

(** Two assets, one factor, 14 rows, memory 11, blocks of two rows: the last block is cut off. *)
Example C46_nonvacuous : factor_setting 1 fe_label fe_pairs 2 11 (fe_times 14) (fe_rows 14) /\
  all_early fe_pca (fe_rows 14) 2 11 (size (fe_times 14)) /\ returns_optimal fe_slv /\ returns_feasible fe_slv /\
  (forall i, (11 + i * 2 < 14)%N -> healthy_block fe_pca (fe_times 14) (fe_rows 14) fe_pairs 2 11 (11 + i * 2)) /\
  let g := construct_cmiewma_factor_model fe_label fe_pca fe_slv (fe_times 14) (fe_rows 14) fe_pairs 2 11 in
  g.2 = None /\ map (@f_time 2 1) g.1 = [:: 11; 12; 13]%z.
Proof. exact fe_case. Qed.

(** C96: no look-ahead.  Data sets that agree on the first L rows have the same items up to row L; the items of the first L rows
    are those of the run on these rows alone. *)
Theorem C96_no_lookahead : forall n k label (pca : exposures n k) (pairs : halflives) (slv : solver (RLA k (size pairs))) uf memory
  times rows times' rows' L,
  factor_setting k label pairs uf memory times rows -> factor_setting k label pairs uf memory times' rows' -> (3 * k + 8 <= memory)%N ->
  all_early pca rows uf memory (size times) -> all_early pca rows' uf memory (size times') ->
  take L times = take L times' -> take L rows = take L rows' ->
  let g := construct_cmiewma_factor_model label pca slv times rows pairs uf memory in
  let g' := construct_cmiewma_factor_model label pca slv times' rows' pairs uf memory in
  (L <= memory + size g.1)%N -> (L <= memory + size g'.1)%N -> (L <= size times)%N -> (L <= size times')%N ->
  take (L - memory) g.1 = take (L - memory) g'.1.
Proof. exact prefix'. Qed.
Print Assumptions C96_no_lookahead.

Theorem C96_prefix : forall n k label (pca : exposures n k) (pairs : halflives) (slv : solver (RLA k (size pairs))) uf memory times rows L,
  factor_setting k label pairs uf memory times rows -> (3 * k + 8 <= memory)%N -> all_early pca rows uf memory (size times) ->
  (L <= size times)%N ->
  let g := construct_cmiewma_factor_model label pca slv times rows pairs uf memory in (L <= memory + size g.1)%N ->
  construct_cmiewma_factor_model label pca slv (take L times) (take L rows) pairs uf memory = (take (L - memory) g.1, None).
Proof. exact take'. Qed.
Print Assumptions C96_prefix.

Example C96_nonvacuous :
  let g := construct_cmiewma_factor_model fe_label fe_pca fe_slv (fe_times 14) (fe_rows 14) fe_pairs 2 11 in
  construct_cmiewma_factor_model fe_label fe_pca fe_slv (fe_times 12) (fe_rows 12) fe_pairs 2 11 = (take 1 g.1, None) /\ size g.1 = 3%N.
Proof. exact fe_prefix. Qed.

(** C97: the full covariance of an item; positive definite exactly if no portfolio has both zero factor exposures and zero holdings
    of every asset with a non-zero residual so far. *)
Theorem C97_full : forall n k label (pca : exposures n k) (pairs : halflives) (slv : solver (RLA k (size pairs))) uf memory times rows i,
  factor_setting k label pairs uf memory times rows -> returns_feasible slv ->
  List.In i (construct_cmiewma_factor_model label pca slv times rows pairs uf memory).1 ->
  exists p, (memory <= p < size times)%N /\ f_time i = nth Z0 times p /\
    full_cov i = (f_exposure i)^T *m f_cov i *m f_exposure i + diag_mx (\row_a idio (f_exposure i) rows p a) /\
    (forall a, 0 <= idio (f_exposure i) rows p a)%re /\ psd (full_cov i) /\
    (spd (full_cov i) <-> forall x : 'cV[R]_n, x <> 0 -> f_exposure i *m x <> 0 \/
       exists a s, (s <= p)%N /\ residual (f_exposure i) rows s a ord0 <> 0 /\ x a ord0 <> 0).
Proof. exact full'. Qed.
Print Assumptions C97_full.

Theorem C97_dict : forall n k label (pca : exposures n k) (pairs : halflives) (slv : solver (RLA k (size pairs))) uf memory times rows,
  factor_setting k label pairs uf memory times rows ->
  let g := construct_cmiewma_factor_model label pca slv times rows pairs uf memory in
  from_factor_to_full_covariance g.1 = [seq (f_time i, full_cov i) | i <- g.1].
Proof. exact dict'. Qed.
Print Assumptions C97_dict.

(** The first asset is the factor, the second has residual one in every row: the full covariances are positive definite. *)
Example C97_nonvacuous :
  let g := construct_cmiewma_factor_model fe_label fe_pca fe_slv (fe_times 14) (fe_rows 14) fe_pairs 2 11 in
  size (from_factor_to_full_covariance g.1) = 3%N /\ forall i, List.In i g.1 -> spd (full_cov i).
Proof. exact fe_full. Qed.

(** C98: what goes wrong. *)
Theorem C98_failure : forall n k label (pca : exposures n k) (pairs : halflives) (slv : solver (RLA k (size pairs))) uf memory times rows e,
  factor_setting k label pairs uf memory times rows ->
  let g := construct_cmiewma_factor_model label pca slv times rows pairs uf memory in
  g.2 = Some e ->
  exists c, (memory + c * uf < size times)%N /\ fm_block label pca slv times rows pairs uf memory (memory + c * uf) = Raise e /\
    forall i, List.In i g.1 -> exists p, (memory <= p < memory + c * uf)%N /\ f_time i = nth Z0 times p.
Proof. exact failure'. Qed.
Print Assumptions C98_failure.

Theorem C98_zero_step : forall n k K label (pca : exposures n k) (slv : solver (RLA k K)) pairs memory times rows,
  construct_cmiewma_factor_model label pca slv times rows pairs 0 memory = ([::], Some ValueError).
Proof. by []. Qed.
Print Assumptions C98_zero_step.

Theorem C98_too_short : forall n k K label (pca : exposures n k) (slv : solver (RLA k K)) pairs uf memory times rows,
  (0 < uf)%N -> (size times <= memory)%N -> construct_cmiewma_factor_model label pca slv times rows pairs uf memory = ([::], None).
Proof. exact short_run'. Qed.
Print Assumptions C98_too_short.

(** A memory below ten rows: the index t - 10 wraps around to the end of the data. *)
Theorem C98_short_memory : forall n k label (pca : exposures n k) (pairs : halflives) (slv : solver (RLA k (size pairs))) uf memory times rows,
  (0 < k)%N -> positive_halflives pairs -> List.NoDup (map label pairs) -> (0 < uf)%N -> increasing times ->
  size rows = size times -> (memory < 10)%N -> (uf + 10 <= size times)%N -> (forall l, exists E, pca l = Ok E) ->
  construct_cmiewma_factor_model label pca slv times rows pairs uf memory = ([::], Some IndexError).
Proof. exact short'. Qed.
Print Assumptions C98_short_memory.

Theorem C98_still : forall n k label (pca : exposures n k) (pairs : halflives) (slv : solver (RLA k (size pairs))) uf memory times rows E,
  factor_setting k label pairs uf memory times rows -> (memory < size times)%N -> pca (train_rows rows memory memory) = Ok E ->
  (forall s, (s < minn (memory + uf) (size times))%N -> factor_return E rows s = 0) ->
  construct_cmiewma_factor_model label pca slv times rows pairs uf memory = ([::], Some IndexError).
Proof. exact still'. Qed.
Print Assumptions C98_still.

Theorem C98_pca_fails : forall n k label (pca : exposures n k) (pairs : halflives) (slv : solver (RLA k (size pairs))) uf memory times rows e,
  factor_setting k label pairs uf memory times rows -> (memory < size times)%N -> pca (train_rows rows memory memory) = Raise e ->
  construct_cmiewma_factor_model label pca slv times rows pairs uf memory = ([::], Some e).
Proof. exact pca_fails'. Qed.
Print Assumptions C98_pca_fails.

Theorem C98_unsolved : forall n k label (pca : exposures n k) (pairs : halflives) (slv : solver (RLA k (size pairs))) uf memory times rows,
  factor_setting k label pairs uf memory times rows -> (memory < size times)%N -> (forall h p, slv h p = None) ->
  exists e, construct_cmiewma_factor_model label pca slv times rows pairs uf memory = ([::], Some e).
Proof. exact unsolved'. Qed.
Print Assumptions C98_unsolved.

Example C98_nonvacuous :
  construct_cmiewma_factor_model fe_label fe_pca fe_slv (fe_times 14) (fe_rows 14) fe_pairs 2 9 = ([::], Some IndexError) /\
  construct_cmiewma_factor_model fe_label fe_pca fe_slv (fe_times 14) (nseq 14 0) fe_pairs 2 11 = ([::], Some IndexError) /\
  exists e, construct_cmiewma_factor_model (K := 1) fe_label fe_pca (fun _ _ => None) (fe_times 14) (fe_rows 14) fe_pairs 2 11 = ([::], Some e).
Proof. exact fe_failures. Qed.

(** C99: factor_log_likelihood is the Gaussian log-density of the return of the next row (NaN after the last); KeyError for an
    unknown date, LinAlgError for a singular covariance. *)
Theorem C99_scores : forall n k times (rows : seq 'cV[R]_n), increasing times -> size rows = size times ->
  forall qs : seq (nat * fitem n k),
  (forall q, List.In q qs -> (q.1 < size times)%N /\ f_time q.2 = nth Z0 times q.1 /\ spd (full_cov q.2)) ->
  factor_log_likelihood times rows (map snd qs) =
  Ok [seq (nth Z0 times q.1, if (q.1.+1 < size times)%N then Some (ln (normal_density 0 (full_cov q.2) (nth 0 rows q.1.+1))) else None)
     | q <- qs].
Proof. exact ll_scores. Qed.
Print Assumptions C99_scores.

Theorem C99_unknown : forall n k times (rows : seq 'cV[R]_n) (l1 : seq (fitem n k)) i l2 a,
  factor_log_likelihood times rows l1 = Ok a -> ~ List.In (f_time i) times ->
  factor_log_likelihood times rows (l1 ++ i :: l2) = Raise KeyError.
Proof. exact ll_unknown. Qed.
Print Assumptions C99_unknown.

Theorem C99_singular : forall n k times (rows : seq 'cV[R]_n), increasing times -> size rows = size times ->
  forall (l1 : seq (fitem n k)) i l2 a,
  factor_log_likelihood times rows l1 = Ok a -> List.In (f_time i) times -> full_cov i \notin unitmx ->
  factor_log_likelihood times rows (l1 ++ i :: l2) = Raise LinAlgError.
Proof. exact ll_singular. Qed.
Print Assumptions C99_singular.

(** The run of the example is scored; the last score is NaN. *)
Example C99_nonvacuous :
  let g := construct_cmiewma_factor_model fe_label fe_pca fe_slv (fe_times 14) (fe_rows 14) fe_pairs 2 11 in
  exists a b, factor_log_likelihood (fe_times 14) (fe_rows 14) g.1 = Ok [:: (11%z, Some a); (12%z, Some b); (13%z, None)].
Proof. exact fe_scores. Qed.
