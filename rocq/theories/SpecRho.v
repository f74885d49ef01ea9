(** * Specification for C103: the exponentially weighted, bias-corrected variance of the observed returns. *)
From Coq Require Import Reals List.
Import ListNotations.
Local Open Scope R_scope.

(** The observed values of a series (oldest first) with their ages; the last position has age 0. *)
Definition observed (xs : list (option R)) : list (nat * R) :=
  flat_map (fun p => match snd p with Some v => [(fst p, v)] | None => [] end) (combine (seq 0 (length xs)) (rev xs)).
(** Weight of an observation: halves every 125 positions. *)
Definition weight (age : nat) : R := Rpower (1 / 2) (INR age / 125).
Definition total (g : nat * R -> R) (xs : list (option R)) : R := fold_right Rplus 0 (map g (observed xs)).
Definition w_sum xs := total (fun p => weight (fst p)) xs.
Definition w2_sum xs := total (fun p => weight (fst p) * weight (fst p)) xs.
Definition w_mean xs := total (fun p => weight (fst p) * snd p) xs / w_sum xs.
(** Reliability weights: sum of w (x - mean)^2 over (sum w - sum w^2 / sum w). *)
Definition w_var xs :=
  total (fun p => weight (fst p) * (snd p - w_mean xs) ^ 2) xs / (w_sum xs - w2_sum xs / w_sum xs).
Definition w_std xs := sqrt (w_var xs).
(** Column j of the rows before row t. *)
Definition before (t j : nat) (rows : list (list (option R))) : list (option R) :=
  map (fun r => nth j r None) (firstn t rows).
