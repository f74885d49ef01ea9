(** * C126: the demo (prices -> returns -> table of weights). *)
From Coq Require Import ZArith String List Lia.
From Verif Require Import Num Py Ewma EwmaPrefix Spec Combination SpecComb FromEwmas Demo DemoRun.
Import ListNotations.

(** * C126: no look-ahead. *)
(** Run the demo once on all prices and once on the first k rows of prices only, with a window of w forecasts.  If the returns of the
    first k rows suffice to build the combination, the short table is the beginning of the long one and every other row of the long
    one is dated after the first k rows of prices.  If they do not suffice, building raises IndexError and the whole long table is
    dated after them.  For any arithmetic, linear algebra, solver and fill mode of pct_change. *)
Theorem C126_no_look_ahead : forall (N : Num) (LA : LinAlg) (label : option num * option num -> string)
  (to_mat : frame string -> l_mat LA) (to_vec : vec -> l_vec LA) pairs mpv mpc clip_at slv pad names (prices : frame time) (k : nat) w table',
  nisnan nnan = true -> (forall p q, In p pairs -> In q pairs -> label p = label q -> p = q) ->
  length (findex prices) = length (fvals prices) -> increasing (findex prices) ->
  demo LA label to_mat to_vec slv pad names prices pairs mpv mpc clip_at (Some w) = Ok table' ->
  let late := Forall (fun tv : Z * list (l_num LA) => In (fst tv) (skipn k (findex prices))) in
  exists returns, demo_returns pad names (frame_take k prices) = Ok returns /\
  match from_ewmas LA label to_mat to_vec returns pairs mpv mpc clip_at true with
  | Ok _ => forall p outs, In p pairs -> iterated_ewma (pair_params mpv mpc clip_at true p) returns = Ok outs -> 1 <= w < length outs ->
      exists table more, demo LA label to_mat to_vec slv pad names (frame_take k prices) pairs mpv mpc clip_at (Some w) = Ok table /\
        table' = table ++ more /\ length table = length outs - w /\ late more
  | Raise e => e = IndexError /\ late table'
  end.
Proof. intros. eapply demo_no_look_ahead; eauto. Qed.
Print Assumptions C126_no_look_ahead.

(** The rows of the table: exactly the results of solve on the combination that from_ewmas builds from the returns with mean = True,
    one row (time, weights) per result, in order and no date twice; a date on which the solver failed is not possible. *)
Theorem C126_table : forall (N : Num) (LA : LinAlg) (label : option num * option num -> string)
  (to_mat : frame string -> l_mat LA) (to_vec : vec -> l_vec LA) pairs mpv mpc clip_at slv pad names (prices : frame time) window table,
  nisnan nnan = true -> (forall p q, In p pairs -> In q pairs -> label p = label q -> p = q) ->
  length (findex prices) = length (fvals prices) -> increasing (findex prices) ->
  demo LA label to_mat to_vec slv pad names prices pairs mpv mpc clip_at window = Ok table ->
  exists returns c results, demo_returns pad names prices = Ok returns /\ from_ewmas LA label to_mat to_vec returns pairs mpv mpc clip_at true = Ok c /\
    solve LA slv c window None = (map Some results, None) /\ NoDup (map fst table) /\
    table = map (fun r => (r_time LA r, r_weights LA r)) results.
Proof. intros. eapply demo_content; eauto. Qed.
Print Assumptions C126_table.
