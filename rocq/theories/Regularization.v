(** * Model of cvx/covariance/regularization.py in exact arithmetic, function by function. *)
From Coq Require Import Reals ZArith String List Lia.
Set Warnings "-notation-overridden,-ambiguous-paths".
From mathcomp Require Import all_ssreflect all_algebra.
From Verif Require Import RStruct MatR Num Py Combination.
Set Implicit Arguments.
Unset Strict Implicit.
Unset Printing Implicit Defensive.
Import GRing.Theory.
Local Open Scope ring_scope.
Delimit Scope R_scope with re.

(** 1 / x *)
Definition rcp (x : R) : R := (1 / x)%re.

(** A generator that maps f over the items of a dictionary and stops at the first exception:
    [for time, sigma in sigmas.items(): yield time, f(time, sigma)]. *)
Fixpoint yield_map {V W : Type} (f : Z -> V -> res W) (d : list (Z * V)) : gen (Z * W) :=
  match d with
  | nil => (nil, None)
  | (t, v) :: d =>
      match f t v with
      | Ok w => let: (l, e) := yield_map f d in ((t, w) :: l, e)
      | Raise e => (nil, Some e)
      end
  end.

Section Reg.
  Context (n : nat).

  (** An array of shape (n, r) with r known only at run time: the list of its columns. *)
  Definition of_cols (q : seq 'cV[R]_n) : 'M[R]_(n, size q) := \matrix_(i, k) (nth 0 q k) i 0.

  (** scipy.linalg.eigh(a, subset_by_index=[lo, hi]): eigenvalues and eigenvectors (columns), None: LinAlgError
      (no convergence).  An argument of the model; its contract is [eigh_ok] in SpecReg.v. *)
  Definition eigh_t := 'M[R]_n -> Z -> Z -> option (seq R * seq 'cV[R]_n).
  (** The index check of scipy: ValueError unless 0 <= lo <= hi <= n - 1. *)
  Definition eigh_call (eigh : eigh_t) (a : 'M[R]_n) (lo hi : Z) : res (seq R * seq 'cV[R]_n) :=
    if (Z.leb 0 lo && Z.leb lo hi && Z.ltb hi (Z.of_nat n))%bool then or_raise (eigh a lo hi) LinAlgError
    else Raise ValueError.

  (** regularization.py:11, the namedtuple LowRank. *)
  Record LowRank : Type := mkLowRank {
    Loading : seq 'cV[R]_n; Lambda : seq R; D : 'M[R]_n; Approximation : 'M[R]_n }.

  (** regularization.py:15-44, _regularize_correlation. *)
  Definition regularize_correlation (eigh : eigh_t) (Rm : 'M[R]_n) (r : Z) : res LowRank :=
    (* line 29: eigh(a=R, subset_by_index=[n - r, n - 1]) *)
    do lq <- eigh_call eigh Rm (Z.sub (Z.of_nat n) r) (Z.sub (Z.of_nat n) 1);
    (* lines 32, 35: descending order *)
    let lamda := rev lq.1 in
    let Q := rev lq.2 in
    (* line 38: Q @ np.diag(lamda) @ Q.T *)
    let R_lo := of_cols Q *m diag_mx (\row_k nth 0 lamda k) *m (of_cols Q)^T in
    (* line 41 *)
    let D := diag_mx (\row_i (Rm - R_lo) i i) in
    (* line 44 *)
    Ok (mkLowRank Q lamda D (R_lo + D)).

  (** A covariance frame: column labels and values; no values: some entry is NaN or infinite. *)
  Record sframe : Type := mkS { s_cols : seq string; s_val : option 'M[R]_n }.

  (** What regularize_covariance yields: a frame (index, columns, values), or LowRankDiag(F, d) with the indices of
      F and d; a column of F is None if it consists of NaN (square root of a negative eigenvalue). *)
  Inductive reg_item : Type :=
  | Dense (index columns : seq string) (cov : 'M[R]_n)
  | Factored (F_index : seq string) (F : seq (option 'cV[R]_n)) (d_index : seq string) (d : 'cV[R]_n).

  (** regularization.py:57, np.sqrt(np.diag(sigma)). *)
  Definition volas (S : 'M[R]_n) : 'cV[R]_n := \col_i sqrt (S i i).
  (** regularization.py:59, (1 / vola) * sigma * (1 / vola).T. *)
  Definition correlation (S : 'M[R]_n) : 'M[R]_n :=
    let v := volas S in \matrix_(i, j) (rcp (v i 0) * S i j * rcp (v j 0)).
  (** sqrt of an eigenvalue; NaN if negative. *)
  Definition sqrt_opt (x : R) : option R := if Rlt_dec x 0%re then None else Some (sqrt x).

  (** regularization.py:66, one column of vola * Loading * sqrt(Lambda). *)
  Definition loading_col (vola : 'cV[R]_n) (lam : R) (q : 'cV[R]_n) : option 'cV[R]_n :=
    omap (fun s : R => \col_i (vola i 0 * q i 0 * s)) (sqrt_opt lam).

  (** regularization.py:57-74, the body of the loop.  A variance that is not positive makes entries of R NaN
      (0 * inf, sqrt of a negative number) and eigh(check_finite) raises ValueError, as it does for NaN input. *)
  Definition regularize_one (eigh : eigh_t) (r : Z) (low_rank_format : bool) (sigma : sframe) : res reg_item :=
    match s_val sigma with
    | None => Raise ValueError
    | Some Sg =>
        if [forall i, if Rlt_dec 0 (Sg i i) then true else false] then
          let vola := volas Sg in
          do Rr <- regularize_correlation eigh (correlation Sg) r;
          if low_rank_format then
            (* lines 66-67: vola * Loading * sqrt(Lambda); diag(vola * D * vola') *)
            let F := [seq loading_col vola p.1 p.2 | p <- zip (Lambda Rr) (Loading Rr)] in
            let d := \col_i (vola i 0 * D Rr i i * vola i 0) in
            Ok (Factored (s_cols sigma) F (s_cols sigma) d)
          else
            (* lines 63-64 *)
            let cov := \matrix_(i, j) (vola i 0 * Approximation Rr i j * vola j 0) in
            Ok (Dense (s_cols sigma) (s_cols sigma) cov)
        else Raise ValueError
    end.

  (** regularization.py:48-74, regularize_covariance (a generator). *)
  Definition regularize_covariance (eigh : eigh_t) (sigmas : list (Z * sframe)) (r : Z) (low_rank_format : bool)
    : gen (Z * reg_item) :=
    yield_map (fun _ s => regularize_one eigh r low_rank_format s) sigmas.
End Reg.

(** ** Expectation-maximisation. *)
Section Em.
  Context (n k : nat).

  (** regularization.py:12, LowRankDiag: F of shape (n, k), d of length n.  The indices of F and d and the columns of
      sigma are taken to be the same assets in the same order (pandas aligns by label). *)
  Definition factors := ('M[R]_(n, k) * 'cV[R]_n)%type.

  Definition inv_or_raise m (M : 'M[R]_m) : res 'M[R]_m := if M \in unitmx then Ok (invmx M) else Raise LinAlgError.

  (** regularization.py:80-87, _e_step.  [1 / d] for d without zeros; a zero in d makes the entries infinite or NaN in
      the code: the model stops with ValueError there (the code goes on with NaN), which no theorem uses. *)
  Definition e_step (Sigma : 'M[R]_n) (F : 'M[R]_(n, k)) (d : 'cV[R]_n)
    : res ('M[R]_n * 'M[R]_(n, k) * 'M[R]_k) :=
    if [forall i, d i 0 != 0] then
      let FTd := \matrix_(a, i) (F^T a i * rcp (d i 0)) in
      do G <- inv_or_raise (FTd *m F + 1%:M);
      let L := \matrix_(a, i) ((G *m F^T) a i * rcp (d i 0)) in
      let Cxx := Sigma in
      let Cxs := Sigma *m L^T in
      let Css := L *m (Sigma *m L^T) + G in
      Ok (Cxx, Cxs, Css)
    else Raise ValueError.

  (** regularization.py:90-94, _m_step. *)
  Definition m_step (Cxx : 'M[R]_n) (Cxs : 'M[R]_(n, k)) (Css : 'M[R]_k) : res factors :=
    do Ci <- inv_or_raise Css;
    let F := Cxs *m Ci in
    let d := \col_i (Cxx i i - 2%re * (\sum_a Cxs i a * F i a) + \sum_a F i a * (F *m Css) i a) in
    Ok (F, d).

  (** One pass of the loop, regularization.py:108-110. *)
  Definition em_step (Sigma : 'M[R]_n) (Fd : factors) : res factors :=
    do C <- e_step Sigma Fd.1 Fd.2; m_step C.1.1 C.1.2 C.2.

  Fixpoint em_iter (m : nat) (Sigma : 'M[R]_n) (Fd : factors) : res factors :=
    match m with
    | 0 => Ok Fd
    | m.+1 => do Fd' <- em_step Sigma Fd; em_iter m Sigma Fd'
    end.

  (** regularization.py:97-112, _em_low_rank_approximation: range(5). *)
  Definition em_low_rank (Sigma : 'M[R]_n) (initial : factors) : res factors := em_iter 5 Sigma initial.

  (** regularization.py:115-126, em_regularize_covariance; a missing initial value is a KeyError. *)
  Definition em_regularize_covariance (sigmas : list (Z * 'M[R]_n)) (initial : list (Z * factors))
    : gen (Z * factors) :=
    yield_map (fun t S => do init <- or_raise (dict_get Z.eqb initial t) KeyError; em_low_rank S init) sigmas.
End Em.
