(** * Model of experiments/utils/iterated_ewma_vec.py, function by function. *)
From Coq Require Import String List Bool ZArith Arith Lia.
From Verif Require Import Num Py Ewma.
Import ListNotations.
Local Open Scope num_scope.

Section VecEwma.
  Context {N : Num}.

  (** iterated_ewma_vec.py:25-26, the two weights at step t (an integer >= 2 in every call). *)
  Definition old_weight (beta : num) (t : nat) : num := (beta - npow beta t) / (n1 - npow beta t).
  Definition new_weight (beta : num) (t : nat) : num := (n1 - beta) / (n1 - npow beta t).

  (** iterated_ewma_vec.py:14-35, get_next_ewma, on arrays of any shape [V] (given by elementwise zip).  `assert
      min_periods` fails for None and for 0. *)
  Definition get_next_ewma {V} (vmap2 : (num -> num -> num) -> V -> V -> V) (EWMA y_last : V) (t : nat) (beta : num)
             (clip_at : option num) (min_periods : option nat) : res V :=
    let plain := vmap2 (fun e y => old_weight beta t * e + new_weight beta t * y) EWMA y_last in
    match truthy clip_at with
    | None => Ok plain
    | Some c =>
        match min_periods with
        | None | Some O => Raise AssertionError
        | Some mp =>
            if (mp + 2 <=? t)%nat
            then Ok (vmap2 (fun e y => old_weight beta t * e + new_weight beta t * npclip y ((- c) * e) (c * e)) EWMA y_last)
            else Ok plain
        end
    end.

  (** iterated_ewma_vec.py:86-95, the loop over the items from position t on (a dictionary has distinct keys, so that
      y[time] is the value of the item). *)
  Fixpoint vec_loop {V} (vmap2 : (num -> num -> num) -> V -> V -> V) (beta : num) (clip_at : option num)
           (min_periods : option nat) (t : nat) (EWMA_old : V) (items : list (Z * V)) : gen (Z * V) :=
    match items with
    | [] => ([], None)
    | (time, y) :: items =>
        match get_next_ewma vmap2 EWMA_old y (t + 1) beta clip_at min_periods with
        | Ok e => let g := vec_loop vmap2 beta clip_at min_periods (S t) e items in ((time, e) :: fst g, snd g)
        | Raise ex => ([], Some ex)
        end
    end.

  (** iterated_ewma_vec.py:66-95, ewma (a generator).  `list(y.values())[0]` raises IndexError for an empty dictionary;
      the first key is skipped. *)
  Definition vec_ewma {V} (vmap2 : (num -> num -> num) -> V -> V -> V) (y : list (Z * V)) (halflife : num)
             (clip_at : option num) (min_periods : option nat) : gen (Z * V) :=
    let beta := nexp ((- nln (n1 + n1)) / halflife) in
    match y with
    | [] => ([], Some IndexError)
    | (_, y0) :: rest => vec_loop vmap2 beta clip_at min_periods 1 y0 rest
    end.

  (** Values of iterated_ewma (iterated_ewma_vec.py:185-312): arrays, or the generator object that calling [ewma]
      returns (calling a generator function runs none of its body). *)
  Inductive pyval : Type := VArr (a : mat) | VGen.
  Definition call_ewma (y : mat) (halflife : option num) (clip_at : option num) (min_periods : nat) : pyval := VGen.

  (** np.sqrt of a generator object: TypeError.  array - generator: the generator becomes a 0-d object array and the
      subtraction of the first element raises TypeError (there is none in an empty array). *)
  Definition np_sqrt (v : pyval) : res mat :=
    match v with VArr a => Ok (mmap nsqrt a) | VGen => Raise TypeError end.
  Definition np_sub (a : mat) (v : pyval) : res mat :=
    match v with VArr b => Ok (mmap2 nsub a b) | VGen => if forallb (fun r => match r with [] => true | _ => false end) a then Ok a else Raise TypeError end.

  (** iterated_ewma_vec.py:214-238; [rest] is everything after line 238 (proved unreachable). *)
  Definition vec_iterated_ewma {X} (rest : mat -> res X) (returns : mat) (vola_halflife : option num) (min_periods_vola : nat)
             (mean : bool) (clip_at : option num) : res X :=
    let mpv := Nat.max 1 min_periods_vola in
    let mpv := if mean then Nat.max mpv 2 else mpv in
    let returns_mean := if mean then call_ewma returns vola_halflife None 0 else VArr (mmap (fun _ => n0) returns) in
    let clip_at_var := match truthy clip_at with Some c => Some (c * c) | None => None end in
    do dev <- np_sub returns returns_mean;
    let realized_vars := mmap (fun x => x * x) dev in
    do D <- np_sqrt (call_ewma realized_vars vola_halflife clip_at_var mpv);
    rest D.
End VecEwma.
