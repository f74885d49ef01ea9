(** * Running the model of ewma.py on the repository's own fixtures (a test of the model, not a proof). *)

From Coq Require Import Floats String List Bool ZArith.
From Verif Require Import Num Py Ewma F64 Fixtures.
Import ListNotations.
Local Open Scope float_scope.

#[local] Existing Instance F64.

(** prices.pct_change().iloc[1:] : p_t / p_{t-1} - 1 *)
Fixpoint pct_change (prev : list float) (l : list (list float)) : list (list float) :=
  match l with
  | [] => []
  | r :: l => map2 (fun p q => p / q - 1) r prev :: pct_change r l
  end.
Definition returns20 : list (list float) :=
  match prices with [] => [] | p :: l => pct_change p l end.
Definition mk (cols : list string) (l : list (list float)) : frame time :=
  @mkFrame F64 time (map Z.of_nat (seq 0 (length l))) cols l.

Definition last_cov (r : res (list (@IEWMA F64))) : list (list float) :=
  match r with Ok l => match rev l with x :: _ => fvals (icov x) | [] => [] end | Raise _ => [] end.
Definition n_items (r : res (list (@IEWMA F64))) : nat :=
  match r with Ok l => length l | Raise _ => 0 end.

Definition all_close (rtol : float) (a b : list (list float)) : bool :=
  Nat.eqb (length a) (length b) &&
  forallb (fun p => Nat.eqb (length (fst p)) (length (snd p)) &&
                    forallb (fun q => close rtol (fst q) (snd q)) (combine (fst p) (snd p)))
          (combine a b).

Definition P_iewma (hv hc : float) (mpv mpc : nat) (c : option float) : @params F64 :=
  @mkParams F64 (Some hv) (Some hc) mpv mpc false None None c true.

(** tests/generate_data.py: returns of GOOG, AAPL, FB; half-lives 10/21, clip_at=4.2;
    reference tests/resources/Sigma_iewma.csv. *)
Definition returns3 := mk ["GOOG"; "AAPL"; "FB"]%string (map (firstn 3) returns20).
Example conform_iewma :
  all_close 1e-10 (last_cov (iterated_ewma (P_iewma 10 21 20 20 (Some 4.2)) returns3)) ref_iewma = true.
Proof. vm_compute. reflexivity. Qed.

(** tests/test_iewma_nans.py: 20 assets, 10% of the returns NaN, half-lives 63/125, no warm-up;
    reference tests/resources/cov_iewma_nan.csv. *)
Definition returns_nan :=
  mk ["GOOG"; "AAPL"; "FB"; "BABA"; "AMZN"; "GE"; "AMD"; "WMT"; "BAC"; "GM"; "T"; "UAA"; "SHLD"; "XOM";
      "RRC"; "BBY"; "MA"; "PFE"; "JPM"; "SBUX"]%string
     (map2 (map2 (fun r (m : bool) => if m then nan else r)) returns20 nan_mask).
Example conform_iewma_nan :
  all_close 1e-10 (last_cov (iterated_ewma (P_iewma 63 125 0 0 None) returns_nan)) ref_iewma_nan = true.
Proof. vm_compute. reflexivity. Qed.

(** Number of emitted items: 319 returns, warm-up 20 + 20 - 1. *)
Example conform_count :
  n_items (iterated_ewma (P_iewma 10 21 20 20 (Some 4.2)) returns3) = 281%nat.
Proof. vm_compute. reflexivity. Qed.
