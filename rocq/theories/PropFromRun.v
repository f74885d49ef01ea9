(** * C120: from_ewmas(...).solve(...) does not look ahead. *)
From Coq Require Import ZArith String List Lia.
From Verif Require Import Num Py Ewma EwmaPrefix Spec Combination SpecComb FromEwmas FromRun.
Import ListNotations.

(** Run the whole pipeline once on all returns and once on the first k rows only, with a window of w forecasts.  If the first
    k rows suffice to forecast, both runs yield the same results up to the last forecast of the short run; the further results
    of the long run are all for times after the first k rows.  If the first k rows do not suffice, the short run raises
    IndexError and every result of the long run is for a later time.  For any arithmetic, linear algebra and solver. *)
Theorem C120_no_look_ahead : forall (N : Num) (LA : LinAlg) (label : option num * option num -> string)
  (to_mat : frame string -> l_mat LA) (to_vec : vec -> l_vec LA) (returns : frame time) (k : nat) pairs mpv mpc clip_at mean c',
  nisnan nnan = true -> length (findex returns) = length (fvals returns) -> increasing (findex returns) ->
  (forall p q, In p pairs -> In q pairs -> label p = label q -> p = q) ->
  from_ewmas LA label to_mat to_vec returns pairs mpv mpc clip_at mean = Ok c' ->
  let late := Forall (fun r => match r with Some r => In (r_time LA r) (skipn k (findex returns)) | None => True end) in
  match from_ewmas LA label to_mat to_vec (frame_take k returns) pairs mpv mpc clip_at mean with
  | Ok c => forall p outs w slv items', In p pairs ->
      iterated_ewma (pair_params mpv mpc clip_at mean p) (frame_take k returns) = Ok outs -> 1 <= w < length outs ->
      solve LA slv c' (Some w) None = (items', None) ->
      exists items more, solve LA slv c (Some w) None = (items, None) /\ items' = items ++ more /\
        length items = length outs - w /\ late more
  | Raise e => e = IndexError /\ forall slv window items', solve LA slv c' window None = (items', None) -> late items'
  end.
Proof. intros N LA label to_mat to_vec returns k pairs mpv mpc clip_at mean c' H1 H2 H3 H4 H5. exact (run_no_look_ahead LA label to_mat to_vec returns k pairs mpv mpc clip_at mean H1 H2 H3 H4 c' H5). Qed.
Print Assumptions C120_no_look_ahead.

(** A concrete case is in PropFromR.v (C120_case). *)
