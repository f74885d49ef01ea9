(** * Model of the CM-IEWMA cell of the experiments (experiments/industry_portfolios.ipynb, cell 11; the same cell is in
    factor_portfolios, stock_portfolios, extensions/nonzero_means, extensions/realized_covariance, extensions/smoothing and
    extensions/generative_mode). *)
From Coq Require Import String List Bool ZArith Arith Lia.
From Verif Require Import Num Py Ewma Combination FromEwmas.
Import ListNotations.

Section Cell.
  Context {N : Num} (LA : LinAlg) (label : option num * option num -> string)
          (to_mat : frame string -> l_mat LA) (to_vec : vec -> l_vec LA).
  (** experiment_utils.py:add_to_diagonal on one matrix, S + lamda * np.diag(np.diag(S)); modelled in ExpUtils.v (C50).
      Here any function of the matrix. *)
  Context (reg : l_mat LA -> l_mat LA).

  (** iewmas = {f"{pair[0]}-{pair[1]}": list(iterated_ewma(returns, vola_halflife=pair[0], cov_halflife=pair[1],
        min_periods_vola=63, min_periods_cov=63)) for pair in cm_iewma_pairs}
      Sigmas = {key: {item.time: item.covariance for item in iewma} for key, iewma in iewmas.items()}
      fast = cm_iewma_pairs[0]; fast = f"{fast[0]}-{fast[1]}"
      Sigmas[fast] = add_to_diagonal(Sigmas[fast], lamda=0.05)
      clip_at and mean keep their defaults None and False (ewma.py:88-99).  The inner dictionary of items by time is built
      together with the outer one, as in from_ewmas: an exception can only come from iterated_ewma. *)
  Definition cm_sigmas (returns : frame time) (pairs : list (option num * option num)) (mpv mpc : nat) : res (kdict (tdict (l_mat LA))) :=
    do results <- ewma_results label returns pairs mpv mpc None false;
    let sigmas := map_nested_dicts results (fun r => to_mat (icov r)) in
    do fast <- or_raise (nth_error pairs 0) IndexError;
    do s <- or_raise (dict_get String.eqb sigmas (label fast)) KeyError;
    Ok (dict_set String.eqb sigmas (label fast) (map (fun tS => (fst tS, reg (snd tS))) s)).

  (** from_sigmas(Sigmas, returns, means=None) *)
  Definition cm_build (returns : frame time) (pairs : list (option num * option num)) (mpv mpc : nat) : res (comb LA) :=
    do sigmas <- cm_sigmas returns pairs mpv mpc;
    from_sigmas LA sigmas (rows_of_frame LA to_vec returns) None.

  (** results = list(....solve(window=10))
      cm_iewma = {result.time: result.covariance for result in results}
      weights = {result.time: result.weights for result in results}
      A date on which the solver failed is None in results (combination.py:276-286) and has no attribute time. *)
  Definition cm_iewma (slv : solver LA) (returns : frame time) (pairs : list (option num * option num)) (mpv mpc : nat) (window : option nat)
    : res (tdict (l_mat LA) * tdict (list (l_num LA))) :=
    do c <- cm_build returns pairs mpv mpc;
    match solve LA slv c window None with
    | (_, Some e) => Raise e
    | (items, None) =>
        do rs <- mapM (fun r => or_raise r AttributeError) items;
        Ok (dict_of Z.eqb (map (fun r => (r_time LA r, r_cov LA r)) rs), dict_of Z.eqb (map (fun r => (r_time LA r, r_weights LA r)) rs))
    end.
End Cell.
