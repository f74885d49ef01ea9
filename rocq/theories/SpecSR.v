(** * Specification for C104. *)
From Coq Require Import Reals ZArith List.
From Verif Require Import Num.
Import ListNotations.
Local Open Scope R_scope.

(** The returns of a year; a year counts if it has more than 100 of them. *)
Definition year_rets (y : Z) (rets : list (Z * R)) : list R := map snd (filter (fun p => Z.eqb (fst p) y) rets).
Definition full_year (rets : list (Z * R)) (y : Z) : Prop := (100 < length (year_rets y rets))%nat.
(** Mean and sample variance. *)
Definition avg (l : list R) : R := fold_right Rplus 0 l / INR (length l).
Definition sample_var (l : list R) : R := fold_right Rplus 0 (map (fun x => (x - avg l) ^ 2) l) / (INR (length l) - 1).
(** Annualised Sharpe ratio with 252 days a year; infinite or NaN (0/0) if the returns do not vary. *)
Definition annual_SR (l : list R) (v : xr) : Prop :=
  (0 < sample_var l -> v = Fin (sqrt 252 * (avg l / sqrt (sample_var l)))) /\
  (sample_var l = 0 -> (0 < avg l -> v = PInf) /\ (avg l < 0 -> v = NInf) /\ (avg l = 0 -> v = NaN)).
