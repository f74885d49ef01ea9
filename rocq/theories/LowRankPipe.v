(** * Model of low_rank_iterated_ewma (experiments/utils/low_rank_ewma.py:20-104), the whole generator. *)
From Coq Require Import Reals ZArith String List Lia.
Set Warnings "-notation-overridden,-ambiguous-paths".
From mathcomp Require Import all_ssreflect all_algebra.
From Verif Require Import RStruct MatR Num Py Spec Ewma Combination Regularization SpecEwma LowRankEwma LowRankStages.
Set Implicit Arguments.
Unset Strict Implicit.
Unset Printing Implicit Defensive.
Import GRing.Theory.
Local Open Scope ring_scope.
Delimit Scope R_scope with re.

Definition is_fin (x : xr) : bool := match x with Fin _ => true | _ => false end.

Section Pipe.
  Context (n k : nat).

  (** low_rank_ewma.py:13, IEWMA(time, mean, covariance, volatility); the covariance is the pair (F, d).  None: some
      entries of it are NaN or infinite (a state with a zero variance, see [scale_low_rank]). *)
  Record lr_item := LrItem { l_time : Z; l_mean : seq xr; l_cov : option (factors n k); l_vol : seq xr }.

  (** A row of numbers as a vector; None if its length is not n or an entry is not finite. *)
  Definition real_row (r : seq xr) : option 'cV[R]_n :=
    if (size r == n) && all is_fin r then Some (\col_i xval (nth NaN r i)) else None.
  Fixpoint real_rows (rs : seq (seq xr)) : option (seq 'cV[R]_n) :=
    match rs with
    | [::] => Some [::]
    | r :: rs => match real_row r, real_rows rs with Some v, Some vs => Some (v :: vs) | _, _ => None end
    end.

  (** low_rank_ewma.py:87-104, the loop over _ewma_low_rank: a failing look-up ends the run; so does the error [e] of the
      generator consumed.  (A volatility row with a non-finite entry is not modelled.) *)
  Fixpoint lr_yield (P : params (N := XR)) (fr : lr_frames (N := XR)) (sts : seq (Z * factors n k)) (e : option exn) : gen lr_item :=
    match sts with
    | [::] => ([::], e)
    | (t, st) :: sts =>
        match lr_vola_mean P fr t with
        | Raise e => ([::], Some e)
        | Ok (v, m) =>
            match real_row v with
            | None => ([::], Some Unmodelled)
            | Some vola =>
                let g := lr_yield P fr sts e in
                (LrItem t m (scale_low_rank vola st) v :: g.1, g.2)
            end
        end
    end.

  (** low_rank_ewma.py:20-104, low_rank_iterated_ewma (rank = k).  [P] bundles the half-lives, minimum periods, mean flag and
      clip level under the names iterated_ewma uses; [nan_to_num P] is not looked at.  Simplified: a standardised return that
      is NaN or infinite, or a half-life that is, gives [Unmodelled]. *)
  Definition low_rank_iterated_ewma (eigsh : eigsh_t n k) (P : params (N := XR)) (returns : frame (N := XR) time) : gen lr_item :=
    match lr_stages P returns with
    | Raise e => ([::], Some e)
    | Ok fr =>
        match real_rows (fvals (lf_adj fr)) with
        | None => ([::], Some Unmodelled)
        | Some rows =>
            let run h := let g := ewma_low_rank eigsh (findex (lf_adj fr)) rows h (min_periods_cov P) in lr_yield P fr g.1 g.2 in
            match cov_halflife P with
            | None => run None
            | Some (Fin h) => run (Some h)
            | Some _ => ([::], Some Unmodelled)
            end
        end
    end.
End Pipe.
