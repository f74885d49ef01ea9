(** * Model of the marimo demo (book/marimo/demo.py:27-54): prices -> returns -> from_ewmas -> table of weights.
    The tests start from the same first step (tests/test_from_ewmas.py:10, tests/test_from_sigmas.py:23). *)
From Coq Require Import String List Bool ZArith Arith Lia.
From Verif Require Import Num Py Ewma Combination FromEwmas.
Import ListNotations.
Local Open Scope num_scope.

Section Demo.
  Context {N : Num}.

  (** DataFrame.ffill: a missing entry takes the last value above it. *)
  Fixpoint ffill_from (last : list num) (rows : list (list num)) : list (list num) :=
    match rows with
    | [] => []
    | r :: rows => let r' := map2 (fun p x => if nisnan x then p else x) last r in r' :: ffill_from r' rows
    end.
  Definition ffill (rows : list (list num)) : list (list num) :=
    match rows with [] => [] | r :: rows => r :: ffill_from r rows end.

  (** demo.py:36, prices.pct_change(): data / data.shift(1) - 1 on the data filled forward ([pad] = true, the default
      fill_method of pandas 2) or as they are ([pad] = false, pandas 3). *)
  Definition pct_change (pad : bool) (prices : frame time) : frame time :=
    let data := if pad then ffill (fvals prices) else fvals prices in
    mkFrame (findex prices) (fcols prices)
      (match data with
       | [] => []
       | r :: rest => map (fun _ => nnan) r :: map2 (map2 (fun prev cur => cur / prev - n1)) data rest
       end).

  (** frame[[name, ...]]: KeyError for an unknown name (column names are distinct). *)
  Fixpoint col_pos (cols : list string) (c : string) : option nat :=
    match cols with
    | [] => None
    | d :: cols => if String.eqb d c then Some O else option_map S (col_pos cols c)
    end.
  Definition select (names : list string) (f : frame time) : res (frame time) :=
    do ps <- mapM (fun c => or_raise (col_pos (fcols f) c) KeyError) names;
    Ok (mkFrame (findex f) names (map (fun r => map (fun p => nth p r nnan) ps) (fvals f))).

  (** demo.py:36: prices.pct_change().dropna(axis=0, how="all")[names]. *)
  Definition demo_returns (pad : bool) (names : list string) (prices : frame time) : res (frame time) :=
    select names (fdropna_all (pct_change pad prices)).

  Context (LA : LinAlg) (label : option num * option num -> string)
          (to_mat : frame string -> l_mat LA) (to_vec : vec -> l_vec LA).
  (** demo.py:49-54: combinations = from_ewmas(returns, pairs, clip_at=4.2, mean=True);
      weights = pd.DataFrame({result.time: result.weights for result in combinations.solve(window=10)}).transpose(),
      as the list of its rows.  A date on which the solver failed is None and has no attribute time.  pairs, clip_at, the window
      and the minimum periods (20 and 20 by default) are arguments here. *)
  Definition demo (slv : solver LA) (pad : bool) (names : list string) (prices : frame time)
             (pairs : list (option num * option num)) (mpv mpc : nat) (clip_at : option num) (window : option nat)
    : res (tdict (list (l_num LA))) :=
    do returns <- demo_returns pad names prices;
    do c <- from_ewmas LA label to_mat to_vec returns pairs mpv mpc clip_at true;
    match solve LA slv c window None with
    | (_, Some e) => Raise e
    | (items, None) =>
        do rs <- mapM (fun r => or_raise r AttributeError) items;
        Ok (dict_of Z.eqb (map (fun r => (r_time LA r, r_weights LA r)) rs))
    end.
End Demo.
