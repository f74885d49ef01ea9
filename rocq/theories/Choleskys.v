(** * Model of get_choleskys (experiments/extensions/large_universes.ipynb, cell 19). *)
From Coq Require Import Reals ZArith String List Lia.
Set Warnings "-notation-overridden,-ambiguous-paths".
From mathcomp Require Import all_ssreflect all_algebra.
From Verif Require Import RStruct MatR Num Py Combination Smooth.
Set Implicit Arguments.
Unset Strict Implicit.
Unset Printing Implicit Defensive.
Import GRing.Theory.
Local Open Scope ring_scope.

Section Choleskys.
  Context (n : nat).

  (** A labelled vector: pd.Series(values, index=labels). *)
  Record cseries : Type := mkS { s_index : seq string; s_val : 'cV[R]_n }.

  (** for time in covs.keys():
          cholesky_temp  = np.linalg.cholesky(covs[time])
          choleskys[time] = pd.DataFrame(cholesky_temp, index=covs[time].index, columns=covs[time].columns)
          ds[time] = pd.Series(np.zeros(len(covs[time].index)), index=covs[time].index)
      np.linalg.cholesky reads the lower triangle ([chol], MatR.v) and raises LinAlgError if it finds no factor.  The keys of a
      dictionary are distinct, so the two results are filled in order.  All frames have shape (n, n). *)
  Fixpoint choleskys_loop (covs : list (Z * cframe n)) : res (list (Z * cframe n) * list (Z * cseries)) :=
    match covs with
    | nil => Ok (nil, nil)
    | (t, C) :: covs =>
        do L <- or_raise (chol (c_val C)) LinAlgError;
        do r <- choleskys_loop covs;
        Ok ((t, mkC (c_index C) (c_columns C) L) :: r.1, (t, mkS (c_index C) 0) :: r.2)
    end.
  (** def get_choleskys(covs): choleskys = {}; ds = {}; the loop; return choleskys, ds *)
  Definition get_choleskys (covs : list (Z * cframe n)) := choleskys_loop covs.
End Choleskys.
