(** * Model of the smoothing functions of experiments/extensions/smoothing.ipynb (line numbers of the .ipynb file). *)
From Coq Require Import Reals ZArith String List Lia.
Set Warnings "-notation-overridden,-ambiguous-paths".
From mathcomp Require Import all_ssreflect all_algebra.
From Verif Require Import RStruct MatR Num Py Combination.
Set Implicit Arguments.
Unset Strict Implicit.
Unset Printing Implicit Defensive.
Import GRing.Theory.
Local Open Scope ring_scope.
Delimit Scope R_scope with re.

Section Smooth.
  Context (n : nat).

  (** np.linalg.norm(., "fro") and cp.norm(., "fro"). *)
  Definition frob (A : 'M[R]_n) : R := sqrt (\sum_i \sum_j A i j * A i j).

  (** A covariance frame: labels of the rows, of the columns, values. *)
  Record cframe : Type := mkC { c_index : seq string; c_columns : seq string; c_val : 'M[R]_n }.

  (** smoothing.ipynb:580, the expression Yt. *)
  Definition blend (theta : R) (Xt Y_old : 'M[R]_n) : 'M[R]_n := theta *: Xt + (1 - theta) *: Y_old.

  (** smoothing.ipynb:585, the objective. *)
  Definition get_next_objective (Xt Y_old : 'M[R]_n) (lamda theta : R) : R :=
    let Yt := blend theta Xt Y_old in
    (1 / 2 * (frob (Yt - Xt)) ^ 2 + lamda * frob (Yt - Y_old))%re.

  (** cvxpy's check of a value assigned to a parameter with PSD=True (an approximate test), and prob.solve() of
      cp.Problem(cp.Minimize(objective)) in the variable theta without constraints: the value of theta, None if it raises
      cp.SolverError.  Arguments of the model; the contracts are in SpecSmooth.v. *)
  Definition check_t := 'M[R]_n -> bool.
  Definition theta_solver := (R -> R) -> option R.

  (** smoothing.ipynb:575-589, get_next.  A negative factor in front of a norm is not convex: DCPError. *)
  Definition get_next (check : check_t) (solve : theta_solver) (Sigma_unsmooth Sigma_prev : 'M[R]_n) (lamda : R)
    : res 'M[R]_n :=
    if ~~ check Sigma_unsmooth then Raise ValueError
    else if ~~ check Sigma_prev then Raise ValueError
    else if Rlt_dec lamda 0%re then Raise DCPError
    else do theta <- or_raise (solve (get_next_objective Sigma_unsmooth Sigma_prev lamda)) SolverError;
         Ok (blend theta Sigma_unsmooth Sigma_prev).

  (** smoothing.ipynb:598-612, the loop, with Sigmas_smoothed[i-1] = [prev]: the smoothed matrix and the update flag of
      every remaining day. *)
  Fixpoint l1_loop (check : check_t) (solve : theta_solver) (lamda : R) (prev : 'M[R]_n) (Sigmas : seq 'M[R]_n)
    : res (seq ('M[R]_n * nat)) :=
    match Sigmas with
    | nil => Ok nil
    | X :: Sigmas =>
        if Rle_dec (frob (prev - X)) lamda then
          do rest <- l1_loop check solve lamda prev Sigmas; Ok ((prev, 0%N) :: rest)
        else
          do Y <- get_next check solve X prev lamda;
          do rest <- l1_loop check solve lamda Y Sigmas; Ok ((Y, 1%N) :: rest)
    end.

  (** smoothing.ipynb:591-614, L1_smoothing.  [cols] is the notebook's global returns.columns (n labels): the labels of
      the given frames are dropped by np.array.  All frames have shape (n, n).  The keys of a dictionary are distinct. *)
  Definition L1_smoothing (check : check_t) (solve : theta_solver) (cols : seq string) (Sigmas : list (Z * cframe))
             (lamda0 : R) : res (list (Z * cframe) * seq nat) :=
    let times := [seq p.1 | p <- Sigmas] in
    match [seq c_val p.2 | p <- Sigmas] with
    | nil => Raise IndexError
    | X0 :: Xs =>
        do l <- l1_loop check solve lamda0 X0 Xs;
        Ok ([seq (p.1, mkC cols cols p.2) | p <- zip times (X0 :: [seq q.1 | q <- l])], [seq q.2 | q <- l])
    end.

  (** smoothing.ipynb:98-108, frob_difference: one value per day but the first.  np.zeros(-1) of an empty dictionary:
      ValueError.  A zero matrix on the day before: division by zero (NaN or inf in the code), [None] here. *)
  Fixpoint frob_loop (prev : 'M[R]_n) (Sigmas : list (Z * 'M[R]_n)) : list (Z * option R) :=
    match Sigmas with
    | nil => nil
    | (t, Sg) :: Sigmas =>
        (t, if Req_EM_T (frob prev) 0%re then None else Some (frob (Sg - prev) / frob prev)%re) :: frob_loop Sg Sigmas
    end.
  Definition frob_difference (Sigmas : list (Z * cframe)) : res (list (Z * option R)) :=
    match [seq (p.1, c_val p.2) | p <- Sigmas] with
    | nil => Raise ValueError
    | (_, S0) :: rest => Ok (frob_loop S0 rest)
    end.
End Smooth.
