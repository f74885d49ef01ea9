(** * Model of experiments/utils/low_rank_ewma.py in exact arithmetic, function by function.

    The preprocessing of low_rank_iterated_ewma (lines 62-88: centring, volatility, clipping) calls the library functions
    modelled in Ewma.v; the part modelled here starts from the standardised rows (finite);
    LowRankStages.v and LowRankPipe.v put the two together. *)
From Coq Require Import Reals ZArith String List Lia.
Set Warnings "-notation-overridden,-ambiguous-paths".
From mathcomp Require Import all_ssreflect all_algebra.
From Verif Require Import RStruct MatR Num Py Spec Combination Regularization.
Set Implicit Arguments.
Unset Strict Implicit.
Unset Printing Implicit Defensive.
Import GRing.Theory.
Local Open Scope ring_scope.
Delimit Scope R_scope with re.

Section LowRankEwma.
  Context (n k : nat).
  Notation vec := 'cV[R]_n.

  (** low_rank_ewma.py:16-17, _get_diagonal. *)
  Definition get_diagonal (F : 'M[R]_(n, k)) (d : vec) : vec := \col_i (\sum_a F i a * F i a + d i 0).

  (** scipy.sparse.linalg.eigsh(LinearOperator((n, n), matvec=mv), k, which="LM"): k eigenvalues and eigenvectors; None:
      no convergence (ArpackNoConvergence, a RuntimeError).  Contract: [eigsh_ok] in SpecLowRank.v. *)
  Definition eigsh_t := (vec -> vec) -> option ('rV[R]_k * 'M[R]_(n, k)).

  (** x[x < 0] = 0 *)
  Definition relu (x : R) : R := if Rlt_dec x 0 then 0 else x.

  (** low_rank_ewma.py:164, scale = 1 / sqrt(sum F^2 + r^2). *)
  Definition lr_scale (F : 'M[R]_(n, k)) (r : vec) : vec := \col_i rcp (sqrt (\sum_a F i a * F i a + r i 0 * r i 0)).

  (** low_rank_ewma.py:141-150, _mv: (scale * F) @ ((F.T * scale.T) @ x) + ((scale * r) * (r.T * scale.T)) @ x.  (The
      docstring mentions D, which the code leaves out.) *)
  Definition lr_mv (F : 'M[R]_(n, k)) (r : vec) (x : vec) : vec :=
    let s := lr_scale F r in
    let sF := \matrix_(i, a) (s i 0 * F i a) in
    let Fs := \matrix_(a, j) (F j a * s j 0) in
    let rr := \matrix_(i, j) ((s i 0 * r i 0) * (r j 0 * s j 0)) in
    sF *m (Fs *m x) + rr *m x.

  (** low_rank_ewma.py:127-186, _low_rank_sum.  A row of F that is zero together with r gives scale = inf and NaN in the
      operator: not modelled.  eigsh rejects k <= 0 (ValueError) and, for operators, k >= n (TypeError). *)
  Definition low_rank_sum (eigsh : eigsh_t) (F : 'M[R]_(n, k)) (d r : vec) : res (factors n k) :=
    if [forall i, \sum_a F i a * F i a + r i 0 * r i 0 != 0] then
      let scale := lr_scale F r in
      if (k == 0)%N then Raise ValueError else if (n <= k)%N then Raise TypeError else
      do lq <- or_raise (eigsh (lr_mv F r)) RuntimeError;
      let lamda := \row_a relu (lq.1 0 a) in
      let F_hat_temp := \matrix_(i, a) (lq.2 i a * sqrt (lamda 0 a)) in
      let new_diag := \col_i (1 + d i 0 * (scale i 0 * scale i 0) - \sum_a F_hat_temp i a * F_hat_temp i a) in
      let d_hat := \col_i (rcp (scale i 0) * new_diag i 0 * 1 / scale i 0) in
      let F_hat := \matrix_(i, a) (rcp (scale i 0) * F_hat_temp i a) in
      Ok (F_hat, \col_i relu (d_hat i 0))
    else Raise Unmodelled.

  (** low_rank_ewma.py:230-240, one pass of the loop for the row number m. *)
  Definition lr_step (eigsh : eigsh_t) (beta : R) (m : nat) (st : factors n k) (row : vec) : res (factors n k) :=
    let coef_old := ((beta - beta ^ (m + 1)) / (1 - beta ^ (m + 1)))%re in
    let coef_new := ((1 - beta) / (1 - beta ^ (m + 1)))%re in
    low_rank_sum eigsh (sqrt coef_old *: st.1) (coef_old *: st.2) (sqrt coef_new *: row).

  Fixpoint lr_loop (eigsh : eigsh_t) (beta : R) (m : nat) (st : factors n k) (rows : seq vec) : gen (factors n k) :=
    match rows with
    | [::] => ([::], None)
    | row :: rows =>
        match lr_step eigsh beta m st row with
        | Ok st => let g := lr_loop eigsh beta m.+1 st rows in (st :: g.1, g.2)
        | Raise e => ([::], Some e)
        end
    end.

  (** low_rank_ewma.py:189-240, _general_low_rank: the states after each row.  Half-life None or 0 (alpha is never
      given): 1 - None is a TypeError.  y[0] of no rows: IndexError; F_init[:, 0] without columns: IndexError. *)
  Definition F_init (y0 : vec) : 'M[R]_(n, k) := \matrix_(i, a) (if (a == 0 :> nat)%N then y0 i 0 else 0).
  Definition general_low_rank (eigsh : eigsh_t) (rows : seq vec) (halflife : option R) : gen (factors n k) :=
    match halflife with
    | Some h =>
        if Req_EM_T h 0 then ([::], Some TypeError) else
        let beta := exp (- ln 2 / h)%re in
        match rows with
        | [::] => ([::], Some IndexError)
        | y0 :: rows =>
            if (k == 0)%N then ([::], Some IndexError) else
            let g := lr_loop eigsh beta 1 (F_init y0, 0) rows in ((F_init y0, 0) :: g.1, g.2)
        end
    | None => ([::], Some TypeError)
    end.

  (** low_rank_ewma.py:209-215 and 104-124: the first min_periods - 1 states become NaN and are not yielded by
      _ewma_low_rank (neither is anything when F has no entries). *)
  Definition ewma_low_rank (eigsh : eigsh_t) (times : seq Z) (rows : seq vec) (halflife : option R) (min_periods : nat)
    : gen (Z * factors n k) :=
    let g := general_low_rank eigsh rows halflife in
    (if (n == 0)%N then [::] else drop min_periods.-1 (zip times g.1), g.2).

  (** low_rank_ewma.py:35-54, scale_low_rank; None: some entries are NaN or infinite (a zero on the diagonal). *)
  Definition scale_low_rank (vola : vec) (st : factors n k) : option (factors n k) :=
    let diag := get_diagonal st.1 st.2 in
    if [forall i, if Rlt_dec 0 (diag i 0) then true else false] then
      let v := \col_i rcp (sqrt (diag i 0)) in
      let F := \matrix_(i, a) (v i 0 * st.1 i a) in
      let d := \col_i (v i 0 * v i 0 * st.2 i 0) in
      Some (\matrix_(i, a) (vola i 0 * F i a), \col_i (vola i 0 * vola i 0 * d i 0))
    else None.
End LowRankEwma.
