(** * em_low_rank_log_likelihood (experiments/utils/experiment_utils.py:328-332): model and proof. *)
From Coq Require Import Reals ZArith String List Lia Lra.
Set Warnings "-notation-overridden,-ambiguous-paths".
From mathcomp Require Import all_ssreflect all_algebra.
From Verif Require Import RStruct MatR Num Py Combination Regularization SpecReg RegProps RegMain EmFacts EmProps EmOpt EmMain ExpUtils SpecExp ExpLL ExpMain.
Set Implicit Arguments.
Unset Strict Implicit.
Unset Printing Implicit Defensive.
Import GRing.Theory.
Local Open Scope ring_scope.
Delimit Scope R_scope with re.

Section EmLL.
  Context (n : nat).

  (** An item of regularize_covariance(low_rank_format=True) as the pair (F, d) with k columns; None if a column of F is NaN
      or their number is not k. *)
  Definition to_factors k (it : reg_item n) : option (factors n k) :=
    match it with
    | Factored _ F _ d =>
        if (size F == k) && all isSome F then Some (\matrix_(i, a) (odflt 0 (nth None F a)) i 0, d) else None
    | Dense _ _ _ => None
    end.

  (** experiment_utils.py:328-332.  r = k > 0 columns.  [dict(...)] runs each generator to its end, so an exception of it is
      the result.  Simplified: an F with NaN columns gives [Unmodelled]; so does a covariance with NaN (regularize_covariance
      raises for it before). *)
  Definition em_low_rank_log_likelihood k (eigh : eigh_t n) (returns : list (Z * nrow)) (Sigmas : list (Z * sframe n))
    : res (list (Z * option R)) :=
    let g := regularize_covariance eigh Sigmas (Z.of_nat k) true in
    if g.2 is Some e then Raise e else
    do Sigmas_low_rank <- mapM (fun p => do Fd <- or_raise (to_factors k p.2) Unmodelled; Ok (p.1, Fd)) g.1;
    do Ss <- mapM (fun p => do S <- or_raise (s_val p.2) Unmodelled; Ok (p.1, S)) Sigmas;
    let g2 := em_regularize_covariance Ss Sigmas_low_rank in
    if g2.2 is Some e then Raise e else
    log_likelihood_low_rank returns g2.1 None.
End EmLL.
