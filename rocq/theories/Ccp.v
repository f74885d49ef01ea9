(** * Model of experiments/utils/ccp_regularize.py in exact arithmetic, function by function.

    Not modelled: printing.  Division by zero: [Unmodelled] (the code goes on with infinities). *)
From Coq Require Import Reals ZArith String List.
Set Warnings "-notation-overridden,-ambiguous-paths".
From mathcomp Require Import all_ssreflect all_algebra.
From Verif Require Import RStruct MatR Num Py Combination Regularization.
Set Implicit Arguments.
Unset Strict Implicit.
Unset Printing Implicit Defensive.
Import GRing.Theory.
Local Open Scope ring_scope.
Delimit Scope R_scope with re.

Section Ccp.
  Context (n k : nat).
  Notation vec := 'cV[R]_n.
  Notation fac := 'M[R]_(n, k).

  (** 1 / d.reshape(-1, 1), and d_inv * F. *)
  Definition inverse_of (d : vec) : res vec := if [forall i, d i 0 != 0] then Ok (\col_i rcp (d i 0)) else Raise Unmodelled.
  Definition rows_times (v : vec) (F : fac) : fac := \matrix_(i, a) (v i 0 * F i a).
  (** np.linalg.inv, np.linalg.cholesky. *)
  Definition np_inv m (A : 'M[R]_m) : res 'M[R]_m := if A \in unitmx then Ok (invmx A) else Raise LinAlgError.
  Definition np_chol m (A : 'M[R]_m) : res 'M[R]_m := or_raise (chol A) LinAlgError.

  (** A _State object: ek, Gk, Sigma; [s_prob]: has construct_problem been called. *)
  Record state := mkState { s_e : vec; s_G : fac; s_Sigma : 'M[R]_n; s_prob : bool }.

  (** ccp_regularize.py:10-21 (and 86-97): __init__. *)
  Definition new_state (Sigma : 'M[R]_n) (F : fac) (d : vec) : res state :=
    do d_inv <- inverse_of d;
    do M <- np_inv (1%:M + F^T *m rows_times d_inv F);
    do Lamda <- np_chol M;
    Ok (mkState d_inv (rows_times d_inv (F *m Lamda)) Sigma false).

  (** [[diag(e), G], [G^T, I]] *)
  Definition big_matrix (e : vec) (G : fac) : 'M[R]_(n + k) := block_mx (diag_mx e^T) G G^T 1%:M.

  (** ccp_regularize.py:23-36 (and 99-114): objective.  slogdet gives log |det|; a zero determinant gives an infinite
      objective: Unmodelled. *)
  Definition objective (s : state) : res R :=
    let D := \det (big_matrix (s_e s) (s_G s)) in
    do L <- np_chol (s_Sigma s);
    if Req_EM_T D 0 then Raise Unmodelled else
    let N := (L^T *m s_G s) in
    Ok (- ln (Rabs D) + \tr (s_Sigma s *m diag_mx (s_e s)^T) - \sum_i \sum_a N i a * N i a).

  (** ccp_regularize.py:38-58: construct_problem.  The domain of cp.log_det: symmetric positive definite matrices. *)
  Definition construct_problem (s : state) : state := mkState (s_e s) (s_G s) (s_Sigma s) true.
  Definition ccp_domain (x : vec * fac) : Prop := spd (big_matrix x.1 x.2).
  Definition ccp_objective (Sigma : 'M[R]_n) (Gk : fac) (x : vec * fac) : R :=
    - ln (\det (big_matrix x.1 x.2)) + \tr (\matrix_(i, j) (Sigma i j * x.1 j 0)) - 2%re * \tr (Sigma *m Gk *m x.2^T).

  (** prob.solve: a minimiser, no solution (the variables get the value None), or cp.SolverError. *)
  Inductive csol := CSolved (x : vec * fac) | CNone | CFailed.
  Definition csolver := (vec * fac -> R) -> (vec * fac -> Prop) -> csol.

  (** ccp_regularize.py:60-69: iterate.  The objective of the old state is printed between solving and storing. *)
  Definition iterate (solve : csolver) (s : state) : res state :=
    if s_prob s then
      match solve (ccp_objective (s_Sigma s) (s_G s)) ccp_domain with
      | CFailed => Raise SolverError
      | r => do _ <- objective s;
             match r with CSolved x => Ok (mkState x.1 x.2 (s_Sigma s) true) | _ => Raise AttributeError end
      end
    else Raise AttributeError.

  (** ccp_regularize.py:71-82 (and 127-138): build. *)
  Definition build (s : state) : res (fac * vec) :=
    do e_inv <- inverse_of (s_e s);
    do M <- np_inv (1%:M - (s_G s)^T *m rows_times e_inv (s_G s));
    do Lamda <- np_chol M;
    Ok (rows_times e_inv (s_G s *m Lamda), e_inv).

  (** ccp_regularize.py:141-158: _common_factor, _grad_G, _grad_e. *)
  Definition common_factor (e : vec) (G : fac) : res fac :=
    do e_inv <- inverse_of e;
    do M <- np_inv (1%:M - G^T *m rows_times e_inv G);
    Ok (rows_times e_inv (G *m M)).
  Definition grad_G (cf : fac) : fac := 2%re *: cf.
  Definition grad_e (e : vec) (G cf : fac) : res vec :=
    do e_inv <- inverse_of e;
    Ok (\col_i (- (e_inv i 0 + (cf *m (rows_times e_inv G)^T) i i))).

  (** ccp_regularize.py:161-176: _solve_proximal_gradient; alpha = 1. *)
  Definition prox_step (Sigma : 'M[R]_n) (Gk : fac) (x : vec * fac) : res (vec * fac) :=
    do cf <- common_factor x.1 x.2;
    let Gg := grad_G cf in
    do eg <- grad_e x.1 x.2 cf;
    Ok (1 *: (x.1 - (eg + \col_i Sigma i i)), 1 *: (x.2 - (Gg - 2%re *: (Sigma *m Gk)))).
  Fixpoint prox_loop (m : nat) (Sigma : 'M[R]_n) (Gk : fac) (x : vec * fac) : res (vec * fac) :=
    match m with 0 => Ok x | m.+1 => do x <- prox_step Sigma Gk x; prox_loop m Sigma Gk x end.
  (** ccp_regularize.py:116-125: _State2.iterate; the objective of the new state is printed at the end (if that fails,
      the new values have been stored). *)
  Definition iterate2 (s : state) : state * option exn :=
    match prox_loop 100 (s_Sigma s) (s_G s) (s_e s, s_G s) with
    | Raise ex => (s, Some ex)
    | Ok x => let s := mkState x.1 x.2 (s_Sigma s) (s_prob s) in
              (s, match objective s with Raise ex => Some ex | Ok _ => None end)
    end.
End Ccp.
