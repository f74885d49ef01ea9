(** * Model of from_ewmas (cvx/covariance/combination.py:103-139). *)
From Coq Require Import String List Bool ZArith Arith Lia.
From Verif Require Import Num Py Ewma Combination.
Import ListNotations.

(** combination.py:18-25, _map_nested_dicts, on a dictionary of dictionaries. *)
Definition map_nested_dicts {A B} (ob : kdict (tdict A)) (func : A -> B) : kdict (tdict B) :=
  map (fun kd => (fst kd, map (fun ta => (fst ta, func (snd ta))) (snd kd))) ob.

Section FromEwmas.
  Context {N : Num} (LA : LinAlg).
  (** The string f"{pair[0]}-{pair[1]}" depends on Python's formatting of numbers: any function. *)
  Context (label : option num * option num -> string).
  (** Reading a pandas frame / Series as an array of the linear algebra interface: any functions. *)
  Context (to_mat : frame string -> l_mat LA) (to_vec : vec -> l_vec LA).

  (** combination.py:122-130: the keyword arguments; the others keep their defaults (ewma.py:88-99). *)
  Definition pair_params (min_periods_vola min_periods_cov : nat) (clip_at : option num) (mean : bool)
             (pair : option num * option num) : params :=
    mkParams (fst pair) (snd pair) min_periods_vola min_periods_cov mean None None clip_at true.

  (** combination.py:119-133: a dictionary comprehension evaluates the pairs in order; a repeated label
      overwrites the value.  The inner comprehension is keyed by result.time. *)
  Definition ewma_results (returns : frame time) (pairs : list (option num * option num))
             (mpv mpc : nat) (clip_at : option num) (mean : bool) : res (kdict (tdict IEWMA)) :=
    do l <- mapM (fun pair =>
                    do r <- iterated_ewma (pair_params mpv mpc clip_at mean pair) returns;
                    Ok (label pair, dict_of Z.eqb (map (fun o => (itime o, o)) r))) pairs;
    Ok (dict_of String.eqb l).

  (** The frame of returns as time -> row (first row of each label, as `.loc` on unique labels). *)
  Definition rows_of_frame (returns : frame time) : tdict (l_vec LA) :=
    combine (findex returns) (map to_vec (fvals returns)).

  (** combination.py:103-139. *)
  Definition from_ewmas (returns : frame time) (pairs : list (option num * option num))
             (mpv mpc : nat) (clip_at : option num) (mean : bool) : res (comb LA) :=
    do results <- ewma_results returns pairs mpv mpc clip_at mean;
    from_sigmas LA (map_nested_dicts results (fun r => to_mat (icov r))) (rows_of_frame returns)
                (Some (map_nested_dicts results (fun r => to_vec (imean r)))).
End FromEwmas.
