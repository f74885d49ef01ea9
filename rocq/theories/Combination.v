(** * Model of cvx/covariance/combination.py, function by function. *)

From Coq Require Import String List Bool ZArith Arith Lia.
From Verif Require Import Num Py.
Import ListNotations.

(** ** Linear algebra interface.

    combination.py works with numpy arrays of four shapes: vectors of length n (n = number of assets),
    n x n matrices, n x K matrices (K = number of experts) and K x K matrices.  The model is written once
    over the operations collected here and nothing is assumed about them; a theorem quantified over every
    [LinAlg] holds for floating point arithmetic.  [None] from [l_inv]/[l_chol]/[l_cholK] is numpy's
    LinAlgError.  The exact instance is [RLA] (RealLA.v). *)
Record LinAlg : Type := {
  l_num : Type;                                  (* float64 scalars *)
  l_vec : Type;                                  (* shape (n,) *)
  l_mat : Type;                                  (* shape (n, n) *)
  l_matB : Type;                                 (* shape (n, K) *)
  l_matK : Type;                                 (* shape (K, K) *)
  l_vec0 : l_vec;                                (* np.zeros(n) *)
  l_inv : l_mat -> option l_mat;                 (* np.linalg.inv *)
  l_chol : l_mat -> option l_mat;                (* np.linalg.cholesky *)
  l_tmulv : l_mat -> l_vec -> l_vec;             (* L.T @ v *)
  l_vsub : l_vec -> l_vec -> l_vec;              (* u - v *)
  l_diag : l_mat -> list l_num;                  (* np.diag *)
  l_colstack : list l_vec -> l_matB;             (* np.column_stack *)
  l_gram : l_matB -> l_matK;                     (* B.T @ B *)
  l_zeroK : l_matK;                              (* the start value 0 of sum() *)
  l_addK : l_matK -> l_matK -> l_matK;           (* P + Q *)
  l_cholK : l_matK -> option l_matK;             (* np.linalg.cholesky *)
  l_zeroM : l_mat;                               (* the start value 0 of sum() *)
  l_addM : l_mat -> l_mat -> l_mat;
  l_scaleM : l_num -> l_mat -> l_mat;            (* L * w *)
  l_zeroV : l_vec;
  l_addV : l_vec -> l_vec -> l_vec;
  l_scaleV : l_num -> l_vec -> l_vec;            (* nu * w *)
  l_invT_mulv : l_mat -> l_vec -> option l_vec;  (* np.linalg.inv(L.T) @ nu *)
  l_inv_sq : l_mat -> option l_mat               (* np.linalg.inv(L @ L.T) *)
}.

Definition or_raise {A} (o : option A) (e : exn) : res A :=
  match o with Some a => Ok a | None => Raise e end.

(** Dictionaries keyed by time / by expert name (insertion order). *)
Notation tdict V := (list (Z * V)).
Notation kdict V := (list (string * V)).

(** ** Object-valued DataFrames: an index of times and named columns of cells; [None] is NaN. *)
Record oframe (C : Type) : Type := mkOF { o_idx : list time; o_cols : kdict (list (option C)) }.
Arguments mkOF {C} _ _.
Arguments o_idx {C} _.
Arguments o_cols {C} _.

(** First occurrences, in order. *)
Fixpoint uniq (l : list Z) : list Z :=
  match l with
  | [] => []
  | t :: l => t :: filter (fun u => negb (u =? t)%Z) (uniq l)
  end.

(** pd.DataFrame({key: {time: cell}}): the index is the union of the keys in order of first appearance
    (pandas unions the indices of dictionaries with sort=False); missing cells are NaN. *)
Definition df_of_dicts {C} (d : kdict (tdict C)) : oframe C :=
  let idx := uniq (concat (map (fun kd => map fst (snd kd)) d)) in
  mkOF idx (map (fun kd => (fst kd, map (fun t => dict_get Z.eqb (snd kd) t) idx)) d).

(** DataFrame.shift(1): every column moves down by one row, the first row becomes NaN. *)
Definition shift1 {C} (f : oframe C) : oframe C :=
  mkOF (o_idx f) (map (fun kc => (fst kc, match snd kc with [] => [] | _ => None :: removelast (snd kc) end))
                      (o_cols f)).

(** DataFrame.dropna(): drop the rows with at least one NaN.  (An array is never NaN for pandas.) *)
Definition is_some {A} (o : option A) : bool := match o with Some _ => true | None => false end.
Definition dropna_any {C} (f : oframe C) : oframe C :=
  let keep := map (fun i => forallb (fun kc => is_some (nth i (snd kc) None)) (o_cols f))
                  (seq 0 (length (o_idx f))) in
  let sel {A} (l : list A) := map fst (filter snd (combine l keep)) in
  mkOF (sel (o_idx f)) (map (fun kc => (fst kc, sel (snd kc))) (o_cols f)).

(** DataFrame.loc[t] for an object frame: the cells of the row. *)
Fixpoint pos_of (l : list Z) (t : Z) : option nat :=
  match l with
  | [] => None
  | u :: l => if (u =? t)%Z then Some O else option_map S (pos_of l t)
  end.
Definition oloc {C} (f : oframe C) (t : time) : res (list (option C)) :=
  match pos_of (o_idx f) t with
  | Some i => Ok (map (fun kc => nth i (snd kc) None) (o_cols f))
  | None => Raise KeyError
  end.

(** A column as a Series: pairs (time, cell). *)
Definition ocol_items {C} (f : oframe C) (col : list (option C)) : tdict (option C) :=
  combine (o_idx f) col.

(** Index.is_monotonic_increasing / decreasing (the labels are distinct). *)
Fixpoint inc_b (l : list Z) : bool :=
  match l with a :: ((b :: _) as l') => (a <? b)%Z && inc_b l' | _ => true end.
Fixpoint dec_b (l : list Z) : bool :=
  match l with a :: ((b :: _) as l') => (b <? a)%Z && dec_b l' | _ => true end.

(** DataFrame.truncate(before, after): needs a sorted index. *)
Definition truncate_pos (idx : list Z) (before after : Z) : res (list nat) :=
  let between lo hi := filter (fun i => let t := nth i idx 0%Z in (lo <=? t)%Z && (t <=? hi)%Z)
                              (seq 0 (length idx)) in
  if inc_b idx then
    if (after <? before)%Z then Raise ValueError else Ok (between before after)
  else if dec_b idx then
    if (after <? before)%Z then Raise ValueError else Ok (between after before)
  else Raise ValueError.

(** Same keys, compared as sets (dict.keys() == dict.keys()). *)
Definition mem (t : Z) (l : list Z) : bool := existsb (Z.eqb t) l.
Definition same_keys {A B} (a : tdict A) (b : tdict B) : bool :=
  forallb (fun t => mem t (map fst b)) (map fst a) && forallb (fun t => mem t (map fst a)) (map fst b).

Section Combination.
  Context (LA : LinAlg).

  (** combination.py:28-34, _cholesky_precision. *)
  Definition cholesky_precision (cov : tdict (l_mat LA)) : res (tdict (l_mat LA)) :=
    mapM (fun item =>
            do i <- or_raise (l_inv LA (snd item)) LinAlgError;
            do L <- or_raise (l_chol LA i) LinAlgError;
            Ok (fst item, L)) cov.

  (** combination.py:60-65, _nu.  [Ls] is a column of the frame of factors; a NaN cell has no `.T`. *)
  Definition nu_ (Ls : tdict (option (l_mat LA))) (means : tdict (l_vec LA)) : res (tdict (l_vec LA)) :=
    mapM (fun item =>
            do L <- or_raise (snd item) AttributeError;
            do m <- or_raise (dict_get Z.eqb means (fst item)) KeyError;
            Ok (fst item, l_tmulv LA L m)) Ls.

  (** combination.py:37-42, _B_t_col.  `returns.loc[time]` raises KeyError for an unknown time. *)
  Definition B_t_col (Ls : tdict (option (l_mat LA))) (nus : tdict (option (l_vec LA)))
             (returns : tdict (l_vec LA)) : res (tdict (l_vec LA)) :=
    mapM (fun item =>
            do L <- or_raise (snd item) AttributeError;
            do r <- or_raise (dict_get Z.eqb returns (fst item)) KeyError;
            do nu <- or_raise (dict_get Z.eqb nus (fst item)) KeyError;
            do nu <- or_raise nu TypeError;
            Ok (fst item, l_vsub LA (l_tmulv LA L r) nu)) Ls.

  (** combination.py:45-46, _diag_part. *)
  Definition diag_part (Ls : tdict (option (l_mat LA))) : res (tdict (list (l_num LA))) :=
    mapM (fun item => do L <- or_raise (snd item) ValueError; Ok (fst item, l_diag LA L)) Ls.

  (** combination.py:68-69, the Result namedtuple. *)
  Record Result : Type := mkResult {
    r_time : time;
    r_mean : l_vec LA;
    r_cov : l_mat LA;
    r_weights : list (l_num LA)
  }.

  (** The object built by combination.py:147-175.  [c_returns] is the frame of returns as time -> row. *)
  Record comb : Type := mkComb {
    c_sigmas : kdict (tdict (l_mat LA));
    c_returns : tdict (l_vec LA);
    c_Ls : oframe (l_mat LA);
    c_Ls_shifted : oframe (l_mat LA);
    c_nus : oframe (l_vec LA);
    c_nus_shifted : oframe (l_vec LA)
  }.

  (** combination.py:157-165: the key check (means given) or zero means (means omitted). *)
  Definition means_of (sigmas : kdict (tdict (l_mat LA))) (means : option (kdict (tdict (l_vec LA))))
    : res (kdict (tdict (l_vec LA))) :=
    match means with
    | Some m =>
        do _ <- mapM (fun ks =>
                        do mk <- or_raise (dict_get String.eqb m (fst ks)) KeyError;
                        if same_keys (snd ks) mk then Ok tt else Raise AssertionError) sigmas;
        Ok m
    | None => Ok (map (fun ks => (fst ks, map (fun ts => (fst ts, l_vec0 LA)) (snd ks))) sigmas)
    end.

  (** combination.py:147-175, called by from_sigmas (142-143). *)
  Definition from_sigmas (sigmas : kdict (tdict (l_mat LA))) (returns : tdict (l_vec LA))
             (means : option (kdict (tdict (l_vec LA)))) : res comb :=
    do means <- means_of sigmas means;
    do chols <- mapM (fun ks => do L <- cholesky_precision (snd ks); Ok (fst ks, L)) sigmas;
    let Ls := df_of_dicts chols in
    let Ls_shifted := dropna_any (shift1 Ls) in
    do nus <- mapM (fun kc =>
                      do mk <- or_raise (dict_get String.eqb means (fst kc)) KeyError;
                      do nu <- nu_ (ocol_items Ls (snd kc)) mk;
                      Ok (fst kc, nu)) (o_cols Ls);
    let nus := df_of_dicts nus in
    let nus_shifted := dropna_any (shift1 nus) in
    Ok (mkComb sigmas returns Ls Ls_shifted nus nus_shifted).

  (** One optimisation problem as handed to cvxpy: the columns of A_param and P_chol_param. *)
  Definition problem : Type := (list (list (l_num LA)) * l_matK LA)%type.

  (** The optimiser is external.  It receives the problem and may depend on everything it solved before in
      this run (warm start); it returns weights or raises cvx.SolverError ([None]). *)
  Definition solver : Type := list problem -> problem -> option (list (l_num LA)).

  (** combination.py:49-57, _A: column i is the concatenation of the diagonals of expert i. *)
  Definition A_mat (rows : list nat) (Ls_diag : oframe (list (l_num LA))) : res (list (list (l_num LA))) :=
    mapM (fun kc => do ds <- mapM (fun i => or_raise (nth i (snd kc) None) ValueError) rows; Ok (concat ds))
         (o_cols Ls_diag).

  (** combination.py:268-286, _solve after the optimiser returned [w]. *)
  Definition opt_cells {C} (l : list (option C)) : res (list C) :=
    mapM (fun o => or_raise o TypeError) l.
  Definition result_at (c : comb) (t : time) (w : list (l_num LA)) : res Result :=
    do Lc <- oloc (c_Ls c) t; do Lc <- opt_cells Lc;
    let L := fold_left (l_addM LA) (map2 (fun L w => l_scaleM LA w L) Lc w) (l_zeroM LA) in
    do nc <- oloc (c_nus c) t; do nc <- opt_cells nc;
    let nu := fold_left (l_addV LA) (map2 (fun v w => l_scaleV LA w v) nc w) (l_zeroV LA) in
    do mean <- or_raise (l_invT_mulv LA L nu) LinAlgError;
    do sigma <- or_raise (l_inv_sq LA L) LinAlgError;
    Ok (mkResult t mean sigma w).

  (** combination.py:258-266: the loop over the prepared problems; a yielded [None] is a SolverError. *)
  Fixpoint solve_loop (slv : solver) (c : comb) (hist : list problem) (todo : list (time * problem))
    : gen (option Result) :=
    match todo with
    | [] => ([], None)
    | (t, p) :: todo =>
        match slv hist p with
        | None => let g := solve_loop slv c (hist ++ [p]) todo in (None :: fst g, snd g)
        | Some w =>
            match result_at c t w with
            | Ok r => let g := solve_loop slv c (hist ++ [p]) todo in (Some r :: fst g, snd g)
            | Raise e => ([], Some e)
            end
        end
    end.

  (** combination.py:218-237: the available times and the times of the run. *)
  Definition Lts_at_r (c : comb) : res (oframe (l_vec LA)) :=
    do cols <- mapM (fun kc =>
                       do nus <- or_raise (dict_get String.eqb (o_cols (c_nus_shifted c)) (fst kc)) KeyError;
                       do v <- B_t_col (ocol_items (c_Ls_shifted c) (snd kc))
                                       (ocol_items (c_nus_shifted c) nus) (c_returns c);
                       Ok (fst kc, v)) (o_cols (c_Ls_shifted c));
    Ok (df_of_dicts cols).

  Definition eq_times (a b : list Z) : bool := if list_eq_dec Z.eq_dec a b then true else false.

  Definition times_of (avail : list time) (window : nat) (times : option (list time)) : res (list time) :=
    match times with
    | None => Ok avail
    | Some ts =>
        do t0 <- pyget ts 0;
        do zero <- or_raise (pos_of avail t0) KeyError;
        let z := Z.of_nat zero in
        if eq_times (pyslice avail z (z + Z.of_nat (length ts))) ts
        then Ok (pyslice avail (z - Z.of_nat window + 1) z ++ ts)
        else Raise AssertionError
    end.

  (** combination.py:215-216 (window: a non-negative integer or None; 0 counts as None). *)
  Definition eff_window (c : comb) (window : option nat) : nat :=
    let n := length (o_idx (c_Ls_shifted c)) in
    let w := match window with Some (S k) => S k | _ => n end in
    Nat.min w n.

  (** Python's range(window - 1, len(times)) as integers. *)
  Definition py_range (a b : Z) : list Z :=
    map (fun i => (a + Z.of_nat i)%Z) (seq 0 (Z.to_nat (b - a))).

  (** combination.py:239-256: the problems, computed before the first item is yielded.  [window] is the
      effective window, [lts] the frame Lts_at_r, [times] the times of the run. *)
  Definition problems_at (c : comb) (window : nat) (lts : oframe (l_vec LA)) (times : list time)
    : res (list (time * problem)) :=
    let w := Z.of_nat window in
    do Bs <- mapM (fun t => do cells <- oloc lts t; do cells <- opt_cells cells;
                            Ok (t, l_colstack LA cells)) times;
    let prod_Bs := map (fun tb => (fst tb, l_gram LA (snd tb))) Bs in
    let range := py_range (w - 1) (Z.of_nat (length times)) in
    do P <- mapM (fun i =>
                    do t <- pyget times i;
                    do t0 <- pyget times (i - w + 1);
                    (* prod_Bs.loc[t0 : t]: from the position of t0 to the position of t, inclusive *)
                    do a <- or_raise (pos_of (map fst prod_Bs) t0) KeyError;
                    do b <- or_raise (pos_of (map fst prod_Bs) t) KeyError;
                    let sl := firstn (b + 1 - a) (skipn a prod_Bs) in
                    Ok (t, fold_left (l_addK LA) (map snd sl) (l_zeroK LA))) range;
    do P_chol <- mapM (fun tp => do C <- or_raise (l_cholK LA (snd tp)) LinAlgError; Ok (fst tp, C)) P;
    do diag_cols <- mapM (fun kc => do d <- diag_part (ocol_items (c_Ls_shifted c) (snd kc));
                                    Ok (fst kc, d)) (o_cols (c_Ls_shifted c));
    let Ls_diag := df_of_dicts diag_cols in
    do A <- mapM (fun i =>
                    do t <- pyget times i;
                    do t0 <- pyget times (i - w + 1);
                    do rows <- truncate_pos (o_idx Ls_diag) t0 t;
                    do a <- A_mat rows Ls_diag;
                    Ok (t, a)) range;
    mapM (fun ta => do C <- or_raise (dict_get Z.eqb P_chol (fst ta)) KeyError;
                    Ok (fst ta, (snd ta, C))) A.

  (** combination.py:214-256. *)
  Definition prepare (c : comb) (window : option nat) (times : option (list time))
    : res (list (time * problem)) :=
    let window := eff_window c window in
    do lts <- Lts_at_r c;
    do times <- times_of (o_idx lts) window times;
    problems_at c window lts times.

  (** combination.py:203-266, solve.  (The cvxpy construction, 254-256 and 72-100, has no observable effect
      besides the problem it poses.) *)
  Definition solve (slv : solver) (c : comb) (window : option nat) (times : option (list time))
    : gen (option Result) :=
    match prepare c window times with
    | Ok todo => solve_loop slv c [] todo
    | Raise e => ([], Some e)
    end.

  (** combination.py:190-194, K. *)
  Definition K_of (c : comb) : nat := length (c_sigmas c).

End Combination.
