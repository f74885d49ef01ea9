(** * yearly_SR (experiments/utils/experiment_utils.py:48-69) with plot=False: model.
    The series of returns is the list of (year of the date, return), in the order of the index. *)
From Coq Require Import Reals ZArith List.
From Verif Require Import Num.
Import ListNotations.
Local Open Scope R_scope.

Definition sumR (l : list R) : R := fold_right Rplus 0 l.
(** Series.mean() and Series.std() (ddof=1) of a group of a resampler: NaN without data, std also NaN with one value. *)
Definition s_mean (l : list R) : xr := match l with [] => NaN | _ => Fin (sumR l / INR (length l)) end.
Definition s_std (l : list R) : xr :=
  match l with
  | [] | [_] => NaN
  | _ => let m := sumR l / INR (length l) in Fin (sqrt (sumR (map (fun x => (x - m) * (x - m)) l) / (INR (length l) - 1)))
  end.
Definition in_year (y : Z) (rets : list (Z * R)) : list R := map snd (filter (fun p => Z.eqb (fst p) y) rets).
(** experiment_utils.py:52: groupby(year).filter(len > 100). *)
Definition keep_years (rets : list (Z * R)) : list (Z * R) :=
  filter (fun p => Nat.ltb 100 (length (in_year (fst p) rets))) rets.
(** The bins of resample("Y"): every year from the first to the last one of the series; none for an empty series. *)
Definition year_bins (rets : list (Z * R)) : list Z :=
  match map fst rets with
  | [] => []
  | y :: ys => let a := fold_right Z.min y ys in let b := fold_right Z.max y ys in
               map (fun k => (a + Z.of_nat k)%Z) (seq 0 (Z.to_nat (b - a + 1)))
  end.
(** experiment_utils.py:48-69 (the plotting branch is not modelled). *)
Definition yearly_SR (rets : list (Z * R)) : list (Z * xr) :=
  let rets := keep_years rets in
  map (fun y => (y, xdiv (xmul (s_mean (in_year y rets)) (Fin 252)) (xmul (s_std (in_year y rets)) (Fin (sqrt 252))))) (year_bins rets).
