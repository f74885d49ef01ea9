(** * Model of experiments/utils/factor_model.py in exact arithmetic, function by function.

    [n] assets, [k] factors; the returns have no NaN.  The factor frame handed to iterated_ewma (Ewma.v) has entries in the
    extended reals, the combination (Combination.v) works on real matrices ([RLA k K], K experts). *)
From Coq Require Import Reals ZArith String List.
Set Warnings "-notation-overridden,-ambiguous-paths".
From mathcomp Require Import all_ssreflect all_algebra.
From Verif Require Import RStruct MatR Num Py Ewma Combination FromEwmas RealLA ExpUtils RetComb.
Set Implicit Arguments.
Unset Strict Implicit.
Unset Printing Implicit Defensive.
Import GRing.Theory.
Local Open Scope ring_scope.
Delimit Scope R_scope with re.
Delimit Scope Z_scope with z.

Section FactorModel.
  Context (n k K : nat).
  (** f"{pair[0]}-{pair[1]}": any function of the pair. *)
  Context (label : option xr * option xr -> string).
  (** cvx.linalg.pca(returns_train, n_components=k).exposure: any function of the rows (external; it may raise). *)
  Context (pca : seq 'cV[R]_n -> res 'M[R]_(k, n)).
  (** The optimiser behind solve(). *)
  Context (slv : solver (RLA k K)).

  (** A real vector as a row of a frame; the column labels play no role. *)
  Definition xrow (v : 'cV[R]_k) : seq xr := [seq Fin (v i ord0) | i <- enum 'I_k].
  Definition xframe (times : seq Z) (factors : seq 'cV[R]_k) : frame (N := XR) Z :=
    mkFrame (N := XR) times (nseq k EmptyString) (map xrow factors).
  (** A covariance of iterated_ewma as a real matrix.  With NaN entries np.linalg.inv returns NaN and np.linalg.cholesky then
      raises LinAlgError; such a matrix is read as 0, for which inv raises LinAlgError. *)
  Definition xfinite (x : xr) : bool := if x is Fin _ then true else false.
  Definition xreal (x : xr) : R := if x is Fin r then r else 0.
  Definition to_matrix (f : frame (N := XR) string) : 'M[R]_k :=
    if all (all xfinite) (fvals f) then \matrix_(i, j) xreal (nth NaN (nth [::] (fvals f) i) j) else 0.

  (** `result.time` of a yielded None (the solver failed). *)
  Definition result_item (o : option (Result (RLA k K))) : res (Z * 'M[R]_k) :=
    if o is Some r then Ok (r_time _ r, (r_cov _ r : 'M[R]_k)) else Raise AttributeError.

  (** factor_model.py:15-49, construct_factor_covariance.  The dictionary comprehensions of lines 17-33 are those of from_ewmas
      ([ewma_results]), with min_periods k and 2k and the other arguments at their defaults.  add_to_diagonal works in place on
      a dictionary that nobody else refers to (ExpUtils.v models the references). *)
  Definition construct_factor_covariance (times : seq Z) (factors : seq 'cV[R]_k) (pairs : seq (option xr * option xr)) (start : Z)
    : res (seq (Z * 'M[R]_k)) :=
    do iewmas <- ewma_results (N := XR) label (xframe times factors) pairs k (2 * k) None false;
    let Sigmas := map_nested_dicts iewmas (fun r => to_matrix (icov r)) in
    let Sigmas := [seq (ks.1, [seq ts <- ks.2 | Z.leb start ts.1]) | ks <- Sigmas] in
    do fast <- pyget pairs 0;
    do S <- or_raise (dict_get String.eqb Sigmas (label fast)) KeyError;
    let Sigmas := dict_set String.eqb Sigmas (label fast) [seq (ts.1, plus_diag (/ 20)%re ts.2) | ts <- S] in
    do c <- from_sigmas (RLA k K) Sigmas (zip times factors) None;
    let g := solve (RLA k K) slv c (Some 10%N) None in
    if g.2 is Some e then Raise e else
    do items <- mapM result_item g.1;
    Ok (dict_of Z.eqb items).

  (** factor_model.py:52-54, the namedtuple. *)
  Record fitem : Type := mkItem { f_time : Z; f_exposure : 'M[R]_(k, n); f_cov : 'M[R]_k; f_diag : 'cV[R]_n }.

  (** (unexplained**2).ewm(halflife=21, min_periods=0).mean(), one row per date. *)
  Definition diag_rows (unexplained : seq 'cV[R]_n) : seq 'cV[R]_n :=
    [seq \col_i odflt 0 (nth None (ewm_mean (halflife_factor 21) [seq Some ((u : 'cV[R]_n) i ord0 * u i ord0) | u <- unexplained]) s)
    | s <- iota 0 (size unexplained)].

  (** factor_model.py:74-103, one pass of the loop. *)
  Definition fm_block (times : seq Z) (rows : seq 'cV[R]_n) (pairs : seq (option xr * option xr)) (uf memory t : nat)
    : res (seq fitem) :=
    let T := Z.of_nat (size times) in
    let tz := Z.of_nat t in
    do train_end <- pyget times (tz - 1);
    do train_start <- pyget times (tz - Z.of_nat memory);
    do test_start <- pyget times (tz - 10);
    do test_end <- pyget times (Z.min (tz + Z.of_nat uf - 1) (T - 1));
    let train := [seq p.2 | p <- zip times rows & Z.leb p.1 train_end && Z.leb train_start p.1] in
    let test := [seq p <- zip times rows | Z.leb p.1 test_end] in
    do E <- pca train;
    let factors := [seq E *m p.2 | p <- test] in
    let unexplained := [seq p.2 - E^T *m (E *m p.2) | p <- test] in
    do covs <- construct_factor_covariance (unzip1 test) factors pairs test_start;
    let diag := zip (unzip1 test) (diag_rows unexplained) in
    mapM (fun tc => do d <- or_raise (dict_get Z.eqb diag tc.1) KeyError; Ok (mkItem tc.1 E tc.2 d)) covs.

  Fixpoint fm_loop (times : seq Z) (rows : seq 'cV[R]_n) (pairs : seq (option xr * option xr)) (uf memory : nat) (ts : seq nat)
    : gen fitem :=
    match ts with
    | [::] => ([::], None)
    | t :: ts =>
        match fm_block times rows pairs uf memory t with
        | Ok items => let g := fm_loop times rows pairs uf memory ts in (items ++ g.1, g.2)
        | Raise e => ([::], Some e)
        end
    end.

  (** range(a, b, s) for s >= 1 *)
  Definition step_range (a b s : nat) : seq nat := [seq a + i * s | i <- iota 0 ((b - a + s.-1) %/ s)]%N.

  (** factor_model.py:57-103, construct_cmiewma_factor_model (a generator), for non-negative integers update_frequency and memory;
      range raises ValueError for a zero step. *)
  Definition construct_cmiewma_factor_model (times : seq Z) (rows : seq 'cV[R]_n) (pairs : seq (option xr * option xr))
             (uf memory : nat) : gen fitem :=
    if uf == 0%N then ([::], Some ValueError)
    else fm_loop times rows pairs uf memory (step_range memory (size times) uf).

  (** item.exposure.T @ item.factor_covariance @ item.exposure + np.diag(item.diagonal) *)
  Definition full_cov (i : fitem) : 'M[R]_n := (f_exposure i)^T *m f_cov i *m f_exposure i + diag_mx (f_diag i)^T.

  (** factor_model.py:106-116, from_factor_to_full_covariance. *)
  Definition from_factor_to_full_covariance (items : seq fitem) : seq (Z * 'M[R]_n) :=
    dict_of Z.eqb [seq (f_time i, full_cov i) | i <- items].

  (** factor_model.py:119-138, factor_log_likelihood: the row after item.time (None: NaN, after the last row); KeyError for an
      unknown time; the matrix is inverted in any case. *)
  Definition factor_log_likelihood (times : seq Z) (rows : seq 'cV[R]_n) (items : seq fitem) : res (seq (Z * option R)) :=
    let shifted := zip times (rcons (behead (map Some rows)) None) in
    mapM (fun i =>
            do r <- or_raise (dict_get Z.eqb shifted (f_time i)) KeyError;
            do v <- (if full_cov i \in unitmx then Ok (obind (fun r => ll_formula r 0 (full_cov i)) r) else Raise LinAlgError);
            Ok (f_time i, v)) items.
End FactorModel.
