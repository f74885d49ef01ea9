(** * Square frames and their cells. *)
From Coq Require Import String List.
From Verif Require Import Num Py.
Import ListNotations.

Definition square {N : Num} (n : nat) (c : frame string) : Prop := length (fvals c) = n /\ Forall (fun r => length r = n) (fvals c).
(** Row i, column j. *)
Definition cell {N : Num} (c : frame string) (i j : nat) : num := nth j (nth i (fvals c) []) nnan.
