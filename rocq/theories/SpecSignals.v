(** * Vocabulary for the signal properties. *)
From Coq Require Import Reals ZArith List.
Set Warnings "-notation-overridden,-ambiguous-paths".
From mathcomp Require Import all_ssreflect all_algebra.
From Verif Require Import RStruct MatR Num Py RetComb Signals.
Set Implicit Arguments.
Unset Strict Implicit.
Unset Printing Implicit Defensive.
Import GRing.Theory.
Local Open Scope ring_scope.
Delimit Scope R_scope with re.

(** The values of a row that are not NaN. *)
Definition values (row : seq (option R)) : seq R := pmap id row.
(** x is the k-th smallest value of l, counted from 0, with repetitions. *)
Definition kth_smallest (l : seq R) (k : nat) (x : R) : Prop :=
  x \in l /\ (count (fun y => Rltb y x) l <= k)%N /\ (k < count (fun y => Rleb y x) l)%N.
(** v is the q-quantile of l: position q (n - 1) = k + f, linear interpolation between the k-th and the next value. *)
Definition is_quantile (l : seq R) (q v : R) : Prop := exists k f lo hi,
  (q * (INR (size l) - 1) = INR k + f)%re /\ (0 <= f < 1)%re /\ kth_smallest l k lo /\
  ((f = 0 /\ v = lo) \/ (kth_smallest l k.+1 hi /\ v = lo + f * (hi - lo)))%re.
(** v moved into [lo, hi]. *)
Definition into (lo hi v : R) : R := (if Rltb v lo then lo else if Rltb hi v then hi else v).
(** Entry i of row t of a table. *)
Definition cell A (d : A) (rows : seq (seq A)) (t i : nat) : A := nth d (nth [::] rows t) i.
(** Every entry changed by f. *)
Definition map_table (f : R -> R) (rows : seq (seq (option R))) : seq (seq (option R)) := [seq [seq omap f x | x <- row] | row <- rows].

(** Columns rearranged: column i of the new table is column p(i) of the old one. *)
Definition rearrange A (d : A) (p : seq nat) (rows : seq (seq A)) : seq (seq A) := [seq [seq nth d row i | i <- p] | row <- rows].

(** The order of np.argsort: NaN is larger than every number. *)
Definition leo (x y : option R) : bool :=
  match x, y with _, None => true | None, Some _ => false | Some a, Some b => Rleb a b end.
(** Contract of np.argsort: the positions of the array in the order of the values. *)
Definition sorts (argsort : seq (option R) -> seq nat) : Prop := forall r,
  perm_eq (argsort r) (iota 0 (size r)) /\
  forall a b, (a <= b)%N -> (b < size r)%N -> leo (nth None r (nth 0%N (argsort r) a)) (nth None r (nth 0%N (argsort r) b)).
(** Number of positive, negative and missing forecasts. *)
Definition n_pos (r : seq (option R)) : nat := count (fun x => if x is Some v then Rltb 0 v else false) r.
Definition n_neg (r : seq (option R)) : nat := count (fun x => if x is Some v then Rltb v 0 else false) r.
Definition n_nan (r : seq (option R)) : nat := count (fun x => ~~ isSome x) r.
(** Every forecast lies strictly between -1 and 1. *)
Definition small (r : seq (option R)) : Prop := forall v, Some v \in r -> (-1 < v < 1)%re.
