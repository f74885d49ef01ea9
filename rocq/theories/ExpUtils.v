(** * Model of experiments/utils/experiment_utils.py in exact arithmetic, function by function.

    Not modelled: yearly_SR (calendar grouping and plotting). *)
From Coq Require Import Reals ZArith String List Lia.
Set Warnings "-notation-overridden,-ambiguous-paths".
From mathcomp Require Import all_ssreflect all_algebra.
From Verif Require Import RStruct MatR Num Py Combination Regularization.
Set Implicit Arguments.
Unset Strict Implicit.
Unset Printing Implicit Defensive.
Import GRing.Theory.
Local Open Scope ring_scope.
Delimit Scope R_scope with re.

(** Python's int / int: ZeroDivisionError for a zero divisor. *)
Definition int_div (a b : Z) : res R :=
  if Z.eqb b 0 then Raise ZeroDivisionError else Ok (IZR a / IZR b)%re.

Section Rolling.
  Context (n : nat).
  Notation row := 'cV[R]_n.

  (** np.outer(x, x). *)
  Definition outerm (x : row) : 'M[R]_n := x *m x^T.

  (** experiment_utils.py:258-271, the loop body at t, applied to the rows from t on.  [returns] are all rows,
      [prev] is Sigmas[t - 1].  [returns[t - memory]] is Python indexing: IndexError beyond the end. *)
  Fixpoint rolling_loop (returns : seq row) (memory : Z) (t : nat) (rest : seq row) (prev : 'M[R]_n)
    : res (seq 'M[R]_n) :=
    match rest with
    | [::] => Ok [::]
    | r :: rest =>
        do alpha_old <- int_div 1 (Z.min (Z.of_nat t + 1) memory);
        do alpha_new <- int_div 1 (Z.min (Z.of_nat t + 2) memory);
        do S <- (if Z.leb memory (Z.of_nat t)
                 then do old <- pyget returns (Z.of_nat t - memory);
                      Ok ((alpha_new / alpha_old)%re *: prev + alpha_new *: (outerm r - outerm old))
                 else Ok ((alpha_new / alpha_old)%re *: prev + alpha_new *: outerm r));
        do more <- rolling_loop returns memory t.+1 rest S;
        Ok (S :: more)
    end.

  (** experiment_utils.py:247-278.  The labels (index and columns of each frame) are [assets]; times and rows come
      from the same frame.  `max(min_periods, 1)`; the slices drop the first min_periods - 1 entries; the dictionary
      comprehension overwrites on repeated times. *)
  Definition rolling_window (times : seq Z) (assets : seq string) (returns : seq row) (memory min_periods : Z)
    : res (list (Z * (seq string * 'M[R]_n))) :=
    let min_periods := Z.max min_periods 1 in
    match returns with
    | [::] => Raise IndexError
    | r0 :: rest =>
        do more <- rolling_loop returns memory 1 rest (outerm r0);
        let k := Z.to_nat (min_periods - 1) in
        let Sigmas := drop k (outerm r0 :: more) in
        let times := drop k times in
        Ok (dict_of Z.eqb (zip times [seq (assets, S) | S <- Sigmas]))
    end.
End Rolling.

(** ** Packing of covariance matrices (experiment_utils.py:281-305).  No arithmetic: entries of any type. *)
Section Packing.
  Context {A : Type} (zero : A).

  (** An array of shape (n, n), by its entries. *)
  Definition arr2 := nat -> nat -> A.
  Definition aset (S : arr2) (p : nat * nat) (v : A) : arr2 :=
    fun i j => if (i == p.1) && (j == p.2) then v else S i j.

  (** The positions of a boolean mask, in the row-major order numpy uses. *)
  Definition mask_pos (n : nat) (mask : nat -> nat -> bool) : seq (nat * nat) :=
    [seq p <- [seq (i, j) | i <- iota 0 n, j <- iota 0 n] | mask p.1 p.2].

  (** Sigma[mask] = row: as many values as positions, or one value for all of them; ValueError otherwise. *)
  Definition mask_assign (S : arr2) (pos : seq (nat * nat)) (row : seq A) : res arr2 :=
    if size row == size pos then Ok (foldl (fun S pv => aset S pv.1 pv.2) S (zip pos row))
    else match row with
         | [:: v] => Ok (foldl (fun S p => aset S p v) S pos)
         | _ => Raise ValueError
         end.

  (** experiment_utils.py:281-294. *)
  Definition from_row_to_covariance (row : seq A) (n : nat) : res arr2 :=
    let upper := mask_pos n (fun i j => (i <= j)%N) in
    do S <- mask_assign (fun _ _ => zero) upper row;
    let lower := mask_pos n (fun i j => (j <= i)%N) in
    (* Sigma.T[lower_mask] is evaluated (copied) before the assignment *)
    mask_assign S lower [seq S p.2 p.1 | p <- lower].

  (** experiment_utils.py:297-305. *)
  Definition from_row_matrix_to_covariance (M : seq (seq A)) (n : nat) : res (seq arr2) :=
    mapM (fun row => from_row_to_covariance row n) M.
End Packing.

(** ** add_to_diagonal (experiment_utils.py:308-318) with Python's references: dictionaries and arrays are objects on a
    heap, a dictionary maps keys to references. *)
Section AddDiag.
  Context (n : nat).
  Inductive obj : Type := Dict (d : list (Z * nat)) | Arr (m : 'M[R]_n).
  Definition heap := seq obj.
  Definition hget (h : heap) (l : nat) : option obj := List.nth_error h l.
  Definition hset (h : heap) (l : nat) (o : obj) : heap := set_nth o h l o.
  Definition halloc (h : heap) (o : obj) : heap * nat := (rcons h o, size h).

  (** Sigma + lamda * np.diag(np.diag(Sigma)) *)
  Definition plus_diag (lamda : R) (S : 'M[R]_n) : 'M[R]_n := S + lamda *: diag_mx (\row_i S i i).

  (** One pass of the loop: read Sigmas[key], allocate the new array, rebind the key in the same dictionary. *)
  Definition add_one (l : nat) (lamda : R) (h : heap) (key : Z) : res heap :=
    match hget h l with
    | Some (Dict d) =>
        do a <- or_raise (dict_get Z.eqb d key) KeyError;
        match hget h a with
        | Some (Arr Sg) =>
            let: (h, b) := halloc h (Arr (plus_diag lamda Sg)) in
            Ok (hset h l (Dict (dict_set Z.eqb d key b)))
        | _ => Raise TypeError
        end
    | _ => Raise AttributeError
    end.
  Fixpoint foldM {A B} (f : A -> B -> res A) (a : A) (l : seq B) : res A :=
    match l with [::] => Ok a | b :: l => do a' <- f a b; foldM f a' l end.

  (** The loop runs over the live key view; assigning existing keys does not change it. *)
  Definition add_to_diagonal (h : heap) (l : nat) (lamda : R) : res (heap * nat) :=
    match hget h l with
    | Some (Dict d) => do h <- foldM (add_one l lamda) h (map fst d); Ok (h, l)
    | _ => Raise AttributeError
    end.
End AddDiag.

(** ** Gaussian log-likelihoods *)
Section LogLik.
  Context (n : nat).
  Notation vec := 'cV[R]_n.
  Notation mat := 'M[R]_n.

  (** np.log: NaN ([None]) for negative numbers and -inf for 0; the functions below take the logarithm of the
      determinant of an invertible matrix only, so 0 does not occur. *)
  Definition log_opt (x : R) : option R := if Rlt_dec 0 x then Some (ln x) else None.

  (** -n/2 * np.log(2*np.pi) - 1/2*np.log(det) - 1/2 * (r-m).T @ Sigma_inv @ (r-m) *)
  Definition ll_formula (r m : vec) (Sigma : mat) : option R :=
    omap (fun ld : R => (- INR n / 2 * ln (2 * PI) - 1 / 2 * ld - 1 / 2 * qf (invmx Sigma) (r - m)%R)%re)
         (log_opt (\det Sigma)).

  (** experiment_utils.py:89-97. *)
  Definition single_log_likelihood (r : vec) (Sigma : mat) (m : vec) : res (option R) :=
    if Sigma \in unitmx then Ok (ll_formula r m Sigma) else Raise LinAlgError.

  (** numpy broadcasting along the first axis: equal lengths, or one of them has length one. *)
  Definition broadcast {A B} (xs : seq A) (ys : seq B) : res (seq (A * B)) :=
    if size xs == size ys then Ok (zip xs ys)
    else match xs, ys with
         | [:: x], _ => Ok [seq (x, y) | y <- ys]
         | _, [:: y] => Ok [seq (x, y) | x <- xs]
         | _, _ => Raise ValueError
         end.

  (** experiment_utils.py:180-212.  [means] must have as many rows as [returns] (reshape raises ValueError).
      np.linalg.inv on the stack raises LinAlgError if one of the matrices is singular. *)
  Definition log_likelihood (returns : seq vec) (Sigmas : seq mat) (means : option (seq vec)) (scale : R)
    : res (seq (option R)) :=
    let means := if means is Some m then m else [seq 0 | _ <- returns] in
    if size means != size returns then Raise ValueError else
    let returns := [seq scale *: r | r <- returns] in
    let means := [seq scale *: m | m <- means] in
    let Sigmas := [seq (scale ^ 2)%re *: S | S <- Sigmas] in
    if all (fun S : mat => S \in unitmx) Sigmas then
      do ps <- broadcast (zip returns means) Sigmas;
      Ok [seq ll_formula p.1.1 p.1.2 p.2 | p <- ps]
    else Raise LinAlgError.

  (** experiment_utils.py:215-244, the loop over t; `Sigmas[t]` raises IndexError when there are fewer matrices than
      rows.  The function has no return statement: its value is None ([tt]). *)
  Fixpoint ll_seq_loop (rm : seq (vec * vec)) (Sigmas : seq mat) : res (seq (option R)) :=
    match rm, Sigmas with
    | [::], _ => Ok [::]
    | _ :: _, [::] => Raise IndexError
    | (r, m) :: rm, Sg :: Sigmas =>
        if Sg \in unitmx then do more <- ll_seq_loop rm Sigmas; Ok (ll_formula r m Sg :: more)
        else Raise LinAlgError
    end.
  Definition log_likelihood_sequential (returns : seq vec) (Sigmas : seq mat) (means : option (seq vec)) (scale : R)
    : res unit :=
    let means := if means is Some m then m else [seq 0 | _ <- returns] in
    if size means != size returns then Raise ValueError else
    do ll <- ll_seq_loop (zip [seq scale *: r | r <- returns] [seq scale *: m | m <- means])
                         [seq (scale ^ 2)%re *: S | S <- Sigmas];
    Ok tt.

  (** Frames with missing values: each row is a list of n entries, [None] is NaN. *)
  Definition nrow := seq (option R).
  Definition nvec (r : nrow) : option vec :=
    if all (fun x => x != None) r then Some (\col_i odflt R0 (nth None r i)) else None.

  (** returns.shift(-1): the row at position k is the row at k + 1, the last one is NaN. *)
  Definition shift_up (rows : list (Z * nrow)) : list (Z * nrow) :=
    zip (map fst rows) (rcons (behead (map snd rows)) (nseq n None)).

  (** The loop shared by experiment_utils.py:119-131 and 155-175: [items] are (time, covariance) in iteration order.
      `returns.loc[time].isna()[0]` looks at the first asset only; a NaN in another asset makes the likelihood NaN.
      KeyError for an unknown time or, with means, a time without mean row.  The matrices are inverted even if the
      return has NaN. *)
  Fixpoint ll_frame_loop (shifted : list (Z * nrow)) (means : option (list (Z * vec))) (items : list (Z * mat))
    : res (list (Z * option R)) :=
    match items with
    | [::] => Ok [::]
    | (t, cov) :: items =>
        do r <- or_raise (dict_get Z.eqb shifted t) KeyError;
        do first <- pyget r 0;
        if first is None then ll_frame_loop shifted means items else
        do m <- (if means is Some ms then or_raise (dict_get Z.eqb ms t) KeyError else Ok 0);
        do v <- (if cov \in unitmx then Ok (obind (fun r => ll_formula r m cov) (nvec r)) else Raise LinAlgError);
        do more <- ll_frame_loop shifted means items;
        Ok ((t, v) :: more)
    end.

  (** experiment_utils.py:100-133.  `returns.iloc[0]` raises IndexError for an empty frame. *)
  Definition log_likelihood_low_rank k (returns : list (Z * nrow)) (Sigmas : list (Z * factors n k))
             (means : option (list (Z * vec))) : res (list (Z * option R)) :=
    if returns is [::] then Raise IndexError else
    ll_frame_loop (shift_up returns) means
      [seq (p.1, p.2.1 *m (p.2.1)^T + diag_mx (p.2.2)^T) | p <- Sigmas].

  (** experiment_utils.py:136-177, r given: the loop consumes the generator regularize_covariance lazily, so that an
      exception of the generator appears after the items before it have been scored. *)
  Definition gen_then {A B} (g : gen A) (f : list A -> res B) : res B :=
    do b <- f g.1; if g.2 is Some e then Raise e else Ok b.
  Definition dense_of (i : reg_item n) : mat := if i is Dense _ _ cov then cov else 0.
  Definition log_likelihood_regularized (eigh : eigh_t n) (returns : list (Z * nrow)) (Sigmas : list (Z * sframe n))
             (means : option (list (Z * vec))) (r : option Z) : res (list (Z * option R)) :=
    if returns is [::] then Raise IndexError else
    match r with
    | Some r =>
        gen_then (regularize_covariance eigh Sigmas r false)
                 (fun items => ll_frame_loop (shift_up returns) means [seq (p.1, dense_of p.2) | p <- items])
    | None =>
        (* matrices with NaN entries do not raise in inv/det: not modelled, ValueError instead *)
        do items <- mapM (fun p => do S <- or_raise (s_val p.2) ValueError; Ok (p.1, S)) Sigmas;
        ll_frame_loop (shift_up returns) means items
    end.
End LogLik.

(** ** Small statistics *)

(** experiment_utils.py:321-325, ecdf: sorted data and i/n. *)
Definition Rleb (x y : R) : bool := if Rle_dec x y then true else false.
Definition ecdf (data : seq R) : seq R * seq R :=
  (sort Rleb data, [seq (INR i / INR (size data))%re | i <- iota 1 (size data)]).

(** experiment_utils.py:72-86, turnover: 252 * 100 * mean over the days of |w_{t+1} - w_t|_1 / |w_t|_1.  [None]: NaN or
    infinite (no day, or |w_t|_1 = 0). *)
Definition l1 n (w : 'cV[R]_n) : R := (\sum_i Rabs (w i ord0))%R.
Definition turnover n (weights : seq 'cV[R]_n) : option R :=
  let w_new := behead weights in
  let w_old := take (size weights).-1 weights in
  let days := zip w_new w_old in
  if (days == [::]) || has (fun w => l1 w == 0) w_old then None
  else Some (252 * ((\sum_(p <- days) (l1 (p.1 - p.2)%R / l1 p.2)%re)%R / INR (size days)) * 100)%re.

(** experiment_utils.py:35-45, MSE: squared Frobenius distance to the outer product of the next row. *)
Definition fro2 n (M : 'M[R]_n) : R := (\sum_i \sum_j M i j * M i j)%R.
Definition mse n (returns : list (Z * nrow)) (covs : list (Z * 'M[R]_n)) : res (list (Z * option R)) :=
  mapM (fun p => do r <- or_raise (dict_get Z.eqb (shift_up n returns) p.1) KeyError;
                 Ok (p.1, omap (fun r : 'cV[R]_n => fro2 (p.2 - r *m r^T)) (nvec n r))) covs.

(** experiment_utils.py:11-16, one time stamp of _realized_covariance: returns_temp.cov(ddof=0) * T_temp for the rows
    with that label (at least two rows; a single row is a Series without .cov(ddof) of a frame: not modelled).
    experiment_utils.py:30-32 realized_volas: root of the sum of squares. *)
Definition colmean n (rows : seq 'cV[R]_n) : 'cV[R]_n := (/ INR (size rows))%re *: (\sum_(r <- rows) r).
Definition cov0 n (rows : seq 'cV[R]_n) : 'M[R]_n :=
  (/ INR (size rows))%re *: \sum_(r <- rows) ((r - colmean rows) *m (r - colmean rows)^T).
Definition realized_covariance n (rows : seq 'cV[R]_n) : 'M[R]_n := INR (size rows) *: cov0 rows.
Definition realized_vola n (rows : seq 'cV[R]_n) : 'cV[R]_n := \col_i sqrt (\sum_(r <- rows) (r i ord0 * r i ord0)%re).
