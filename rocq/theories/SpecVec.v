(** * Vocabulary for the properties of iterated_ewma_vec.py. *)
From Coq Require Import Reals List ZArith Arith.
From Verif Require Import Num Py Ewma Spec.
Import ListNotations.
Local Open Scope R_scope.

(** An array of shape (r, c) with the finite entries m i j. *)
Definition array (r c : nat) (m : nat -> nat -> R) : list (list xr) :=
  map (fun i => map (fun j => Fin (m i j)) (seq 0 c)) (seq 0 r).

(** A dictionary time stamp -> array: day k carries the stamp [nth k ts] and the entries u i j k. *)
Definition daily (r c : nat) (ts : list Z) (u : nat -> nat -> nat -> R) : list (Z * list (list xr)) :=
  combine ts (map (fun k => array r c (fun i j => u i j k)) (seq 0 (length ts))).

(** Average with limited updates: the estimate e moves towards the observation limited to [-c e, c e] (numpy's order: the
    lower limit first, the upper limit wins) once more than mp + 1 observations have been seen; no limit without c. *)
Fixpoint limited_avg (h : R) (mp : nat) (rc : option R) (u : nat -> R) (k : nat) : R :=
  match k with
  | O => u 0%nat
  | S k' =>
      let e := limited_avg h mp rc u k' in
      let w := eweight (decay h) k k in
      let y := match rc with
               | Some c => if (k <=? mp)%nat then u k else Rmin (Rmax (u k) (- c * e)) (c * e)
               | None => u k
               end in
      (1 - w) * e + w * y
  end.
