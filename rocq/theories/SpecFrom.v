(** * Vocabulary for from_ewmas. *)
From Coq Require Import String Reals List Bool ZArith.
From Verif Require Import Num Py Ewma Combination.
Import ListNotations.

(** First occurrences, in order. *)
Fixpoint firsts (l : list string) : list string :=
  match l with
  | [] => []
  | a :: l => a :: filter (fun b => negb (String.eqb b a)) (firsts l)
  end.
(** Value of the last entry with key k. *)
Fixpoint last_value {V} (l : list (string * V)) (k : string) : option V :=
  match l with
  | [] => None
  | (k', v) :: l => match last_value l k with Some w => Some w | None => if String.eqb k k' then Some v else None end
  end.

(** An expert's forecasts: item by item (the times are distinct). *)
Definition expert_covs {N : Num} (LA : LinAlg) (to_mat : frame string -> l_mat LA) (outs : list IEWMA) : tdict (l_mat LA) := map (fun o => (itime o, to_mat (icov o))) outs.
Definition expert_means {N : Num} (LA : LinAlg) (to_vec : vec -> l_vec LA) (outs : list IEWMA) : tdict (l_vec LA) := map (fun o => (itime o, to_vec (imean o))) outs.

Local Open Scope R_scope.
(** During the volatility warm-up some asset moved: it had a non-zero return (with mean = True: a return
    different from its first one). *)
Definition moved (mean : bool) (x : nat -> nat -> R) (n warmup : nat) : Prop :=
  exists j s, (j < n)%nat /\ (s <= warmup)%nat /\ (if mean then x j s <> x j 0%nat else x j s <> 0).

(** Every pair consists of two positive half-lives. *)
Definition positive_halflives (pairs : list (option xr * option xr)) : Prop :=
  forall p, In p pairs -> exists h1 h2, p = (Some (Fin h1), Some (Fin h2)) /\ 0 < h1 /\ 0 < h2.
