(** * C39: the low-rank EWMA (experiments/utils/low_rank_ewma.py) keeps variances.

    [low_rank_sum] is _low_rank_sum, [ewma_low_rank] is _ewma_low_rank, [scale_low_rank] the rescaling of
    low_rank_iterated_ewma.  The sparse eigen-solver is an argument with contract [eigsh_ok]; [eigsh_exact]
    (LowRankProps.v) meets it. *)
From Coq Require Import Reals ZArith String List Lra.
Set Warnings "-notation-overridden,-ambiguous-paths".
From mathcomp Require Import all_ssreflect all_algebra.
From Verif Require Import RStruct MatR Num Py Spec Regularization SpecReg LowRankEwma SpecLowRank LowRankProps.
Set Implicit Arguments.
Unset Strict Implicit.
Unset Printing Implicit Defensive.
Import GRing.Theory.
Local Open Scope ring_scope.
Delimit Scope R_scope with re.

(** Whatever the solver returns: no negative specific variance, and no variance is lost; none is added unless the
    specific variance was clamped at zero. *)
Theorem C39_any_solver : forall n k (eigsh : eigsh_t n k) F (d r : 'cV[R]_n) F' (d' : 'cV[R]_n) i, low_rank_sum eigsh F d r = Ok (F', d') ->
  Rle 0 (d' i 0) /\
  Rle (factor_model F d i i + r i 0 * r i 0) (factor_model F' d' i i) /\
  (Rlt 0 (d' i 0) -> factor_model F' d' i i = factor_model F d i i + r i 0 * r i 0).
Proof. exact lrs_diag. Qed.
Print Assumptions C39_any_solver.

(** With true eigenvectors variances are preserved exactly, and what the new factors leave out is positive
    semidefinite, its diagonal being moved to the specific variances. *)
Theorem C39_update : forall n k (eigsh : eigsh_t n k) F (d r : 'cV[R]_n) F' (d' : 'cV[R]_n), eigsh_ok eigsh -> (forall i, Rle 0 (d i 0%R)) ->
  low_rank_sum eigsh F d r = Ok (F', d') ->
  (forall i, factor_model F' d' i i = factor_model F d i i + r i 0 * r i 0) /\
  exists E, psd E /\ F *m F^T + r *m r^T = F' *m F'^T + E /\ forall i, d' i 0 = d i 0 + E i i.
Proof. exact lrs_keeps. Qed.
Print Assumptions C39_update.

(** Nothing is left out while the rank suffices. *)
Theorem C39_no_loss : forall n k (eigsh : eigsh_t n k) F (d r : 'cV[R]_n) F' (d' : 'cV[R]_n), eigsh_ok eigsh -> (forall i, Rle 0 (d i 0%R)) ->
  low_rank_sum eigsh F d r = Ok (F', d') -> (\rank (F *m F^T + r *m r^T)%R <= k)%N ->
  F' *m F'^T = F *m F^T + r *m r^T /\ d' = d.
Proof. exact lrs_no_loss. Qed.
Print Assumptions C39_no_loss.

(** Every item of a run: at the time stamp of its row, with the exponentially weighted second moments of all rows so far
    as variances, and a positive semidefinite remainder. *)
Theorem C39_run : forall n k (eigsh : eigsh_t n k) ts rows h mp p t F (d : 'cV[R]_n), eigsh_ok eigsh -> Rlt 0 h ->
  List.nth_error (ewma_low_rank eigsh ts rows (Some h) mp).1 p = Some (t, (F, d)) ->
  let pos := (mp.-1 + p)%N in let M := ew_moment h (fun s => nth 0 rows s) pos in
  t = nth Z0 ts pos /\
  (forall i, Rle 0 (d i 0) /\ factor_model F d i i = M i i) /\
  (exists E, psd E /\ M = F *m F^T + E /\ forall i, d i 0 = E i i).
Proof. exact run_items. Qed.
Print Assumptions C39_run.
Theorem C39_run_exact_start : forall n k (eigsh : eigsh_t n k) ts rows h mp p t F (d : 'cV[R]_n), eigsh_ok eigsh -> Rlt 0 h ->
  List.nth_error (ewma_low_rank eigsh ts rows (Some h) mp).1 p = Some (t, (F, d)) -> (mp.-1 + p < k)%N ->
  F *m F^T = ew_moment h (fun s => nth 0 rows s) (mp.-1 + p) /\ d = 0.
Proof. exact run_exact. Qed.
Print Assumptions C39_run_exact_start.
Theorem C39_run_complete : forall n k (eigsh : eigsh_t n k) ts y0 rows h mp, Rlt 0 h -> (0 < k < n)%N -> eigsh_total eigsh ->
  size ts = (size rows).+1 -> (forall (row : 'cV[R]_n) i, row \in rows -> row i 0 != 0) ->
  let g := ewma_low_rank eigsh ts (y0 :: rows) (Some h) mp in g.2 = None /\ map fst g.1 = drop mp.-1 ts.
Proof. exact items_total. Qed.
Print Assumptions C39_run_complete.

(** The rescaled forecast has exactly the squared volatilities on its diagonal and the correlations of the state. *)
Theorem C39_rescaled : forall n k (vola : 'cV[R]_n) (st st' : factors n k), scale_low_rank vola st = Some st' ->
  (forall i, factor_model st'.1 st'.2 i i = vola i 0 * vola i 0) /\
  forall i j, factor_model st'.1 st'.2 i j * (sqrt (factor_model st.1 st.2 i i) * sqrt (factor_model st.1 st.2 j j))%re =
    factor_model st.1 st.2 i j * (vola i 0 * vola j 0).
Proof. exact scale_diag. Qed.
Print Assumptions C39_rescaled.
Theorem C39_rescaled_defined : forall n k (vola : 'cV[R]_n) (st : factors n k),
  scale_low_rank vola st <> None <-> forall i, Rlt 0 (factor_model st.1 st.2 i i).
Proof. exact scale_some. Qed.
Print Assumptions C39_rescaled_defined.

(** Three assets, one factor, three days: (0,1,2), (1,2,3), (-1,-1,-1) ([lr_y0], [lr_y1], [lr_y2]). *)
Definition ex_ts : seq Z := [:: Z0; Z.of_nat 1; Z.of_nat 2].
Example C39_case : exists F d F2 d2,
  eigsh_ok (@eigsh_exact 3 1) /\ eigsh_total (@eigsh_exact 3 1) /\
  ewma_low_rank (@eigsh_exact 3 1) ex_ts [:: lr_y0; lr_y1; lr_y2] (Some 2%re) 2 =
    ([:: (Z.of_nat 1, (F, d)); (Z.of_nat 2, (F2, d2))], None) /\
  (forall i, Rlt 0 (factor_model F2 d2 i i)) /\
  exists st, scale_low_rank lr_y0 (F2, d2) = Some st.
Proof. exact ex_lr_run. Qed.
Example C39_update_case : exists F' d', low_rank_sum (@eigsh_exact 3 1) (F_init 1 lr_y0) 0 lr_y1 = Ok (F', d').
Proof. exact ex_lr_sum. Qed.
Example C39_no_loss_case : exists F' d', low_rank_sum (@eigsh_exact 3 2) (F_init 2 lr_y0) 0 lr_y1 = Ok (F', d') /\
  (\rank (F_init 2 lr_y0 *m (F_init 2 lr_y0)^T + lr_y1 *m lr_y1^T)%R <= 2)%N.
Proof. exact ex_lr_rank. Qed.
