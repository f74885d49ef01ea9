(** * Model of experiments/extensions/generative_mode.ipynb: EWMA covariances that continue with sampled returns.

    Numbers are reals or NaN ([None]); infinities and rounding are left out.  A frame is the list of its rows
    with their labels; the column labels, which are only copied, are left out. *)
From Coq Require Import Reals List.
Set Warnings "-notation-overridden,-ambiguous-paths".
From mathcomp Require Import all_ssreflect all_algebra.
From Verif Require Import RStruct MatR Num Py.
Set Implicit Arguments.
Unset Strict Implicit.
Unset Printing Implicit Defensive.
Import GRing.Theory.
Local Open Scope ring_scope.
Delimit Scope R_scope with re.

Section Gen.
  Variables (n : nat) (T : Type).
  Implicit Types (e : 'M[option R]_n) (x : 'rV[option R]_n).

  (** NaN propagates through the arithmetic of numpy.  generative_mode.ipynb:163-165, 221-223 *)
  Definition lift2 (f : R -> R -> R) (a b : option R) : option R :=
    match a, b with Some u, Some v => Some (f u v) | _, _ => None end.

  (** `fct = lambda x: np.outer(x, x)`.  generative_mode.ipynb:142, 151 *)
  Definition outer x : 'M[option R]_n := \matrix_(i, j) lift2 Rmult (x ord0 i) (x ord0 j).

  (** `e + (1 - beta) * (v - e) / (1 - np.power(beta, p))`, elementwise.  generative_mode.ipynb:163-165, 221-223 *)
  Definition step (beta : R) (p : nat) e (v : 'M[option R]_n) : 'M[option R]_n :=
    \matrix_(i, j) lift2 (fun a b => a + (1 - beta) * (b - a) / (1 - pow beta p))%re (e i j) (v i j).

  (** `np.isnan(ewma).all()`.  generative_mode.ipynb:145 *)
  Definition all_nan e : bool := [forall i, forall j, ~~ isSome (e i j)].

  (** What `f(k)` of `_general` returns: a pair while k < min_periods - 1 (the values are NaN then), a triple afterwards.
      generative_mode.ipynb:192-196 *)
  Inductive item := Pair (t : T) | Triple (t : T) (e : 'M[option R]_n) (k : nat).
  Definition f_item (min_periods : nat) (t : T) e (k : nat) : item :=
    if (k < min_periods - 1)%N then Pair t else Triple t e k.

  (** The loop over the rows from the second on.  `clip_at` is None in the only call.  generative_mode.ipynb:213-225 *)
  Fixpoint general_loop (beta : R) (min_periods k : nat) e (rows : seq (T * 'rV[option R]_n)) : seq item :=
    match rows with
    | [::] => [::]
    | r :: rows => let e' := step beta (k + 1) e (outer r.2) in
        f_item min_periods r.1 e' k :: general_loop beta min_periods k.+1 e' rows
    end.

  (** `alpha = 1 - np.exp(-np.log(2) / halflife)`, `beta = 1 - alpha`.  generative_mode.ipynb:149-150, 204-207 *)
  Definition beta_of (halflife : R) : R := (1 - (1 - exp (- ln 2 / halflife)))%re.

  (** `_general(data.values, times=data.index, halflife, fct, min_periods)`: the items of the generator and the exception
      that ends it.  With halflife 0 (false) alpha stays None and `1 - alpha` is a TypeError; `y[0]` of an empty array is
      an IndexError.  generative_mode.ipynb:170-225 *)
  Definition general (data : seq (T * 'rV[option R]_n)) (halflife : R) (min_periods : nat) : seq item * option exn :=
    if halflife == 0%re then ([::], Some TypeError) else
    match data with
    | [::] => ([::], Some IndexError)
    | r :: rows => let e := outer r.2 in
        (f_item min_periods r.1 e 0 :: general_loop (beta_of halflife) min_periods 1 e rows, None)
    end.

  (** What `_ewma_cov` yields: dated estimates, then numbered samples.  generative_mode.ipynb:146, 167 *)
  Inductive event := Estimate (t : T) (e : 'M[option R]_n) | Sample (i : nat) (x : 'rV[option R]_n).

  (** `for t, ewma, n in _general(...)`: a pair cannot be unpacked into three names (ValueError); an estimate without
      values is not passed on.  The result carries the last `ewma` and `n`.  generative_mode.ipynb:138-146 *)
  Fixpoint consume (l : seq item) (last : option ('M[option R]_n * nat)) : seq event * (exn + option ('M[option R]_n * nat)) :=
    match l with
    | [::] => ([::], inr last)
    | Pair _ :: _ => ([::], inl ValueError)
    | Triple t e k :: l => let: (ev, fin) := consume l (Some (e, k)) in
        ((if all_nan e then ev else Estimate t e :: ev), fin)
    end.

  (** The sampling loop from call number i on, m calls left.  [draw i e] is the i-th call of
      np.random.multivariate_normal(0, e).  generative_mode.ipynb:153-167 *)
  Fixpoint sample_loop (draw : nat -> 'M[option R]_n -> res 'rV[option R]_n) (beta : R) (genarative_data : option (seq 'rV[option R]_n))
      (m i k : nat) e : seq event * option exn :=
    match m with
    | 0 => ([::], None)
    | m.+1 =>
        match draw i e with
        | Raise err => ([::], Some err)
        | Ok sample =>
            match (if genarative_data is Some g then (if List.nth_error g i is Some r then Ok r else Raise IndexError) else Ok sample) with
            | Raise err => ([::], Some err)
            | Ok next => let e' := step beta (k + 1 + 1) e (outer next) in
                let: (ev, err) := sample_loop draw beta genarative_data m i.+1 k.+1 e' in (Sample i sample :: ev, err)
            end
        end
    end.

  (** `_ewma_cov(data, halflife, min_periods, n_samples, genarative_data)`.  generative_mode.ipynb:133-167 *)
  Definition ewma_cov draw data (halflife : R) (min_periods n_samples : nat) genarative_data : seq event * option exn :=
    let: (items, err) := general data halflife min_periods in
    match consume items None, err with
    | (ev, inl e), _ => (ev, Some e)
    | (ev, inr _), Some e => (ev, Some e)
    | (ev, inr None), None => (ev, Some UnboundLocalError)
    | (ev, inr (Some (e, k))), None =>
        let: (ev', err') := sample_loop draw (beta_of halflife) genarative_data n_samples 0 k e in (ev ++ ev', err')
    end.
End Gen.
Arguments Pair {n T}.
Arguments Triple {n T}.
Arguments Estimate {n T}.
Arguments Sample {n T}.
