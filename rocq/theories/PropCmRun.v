(** * C123: the CM-IEWMA cell of the experiments. *)
From Coq Require Import ZArith String List Lia.
From Verif Require Import Num Py Ewma EwmaPrefix Spec Combination SpecComb FromEwmas CmIewma CmRun.
Import ListNotations.

(** * C123: no look-ahead. *)
(** Run the cell once on all returns and once on the first k rows only, with a window of w forecasts.  If the first k rows suffice
    to build, both dictionaries of the short run are the beginnings of those of the long run, and everything else in the long run
    is dated after the first k rows.  If the first k rows do not suffice, the short run raises IndexError and everything in the
    long run is dated after them.  For any arithmetic, linear algebra, solver and regularisation reg of the fast expert. *)
Theorem C123_no_look_ahead : forall (N : Num) (LA : LinAlg) (label : option num * option num -> string)
  (to_mat : frame string -> l_mat LA) (to_vec : vec -> l_vec LA) (reg : l_mat LA -> l_mat LA) fast rest mpv mpc (returns : frame time) (k : nat) slv w covs' weights',
  let pairs := fast :: rest in
  nisnan nnan = true -> (forall p q, In p pairs -> In q pairs -> label p = label q -> p = q) ->
  length (findex returns) = length (fvals returns) -> increasing (findex returns) ->
  cm_iewma LA label to_mat to_vec reg slv returns pairs mpv mpc (Some w) = Ok (covs', weights') ->
  let late := fun V => Forall (fun tv : Z * V => In (fst tv) (skipn k (findex returns))) in
  match cm_build LA label to_mat to_vec reg (frame_take k returns) pairs mpv mpc with
  | Ok _ => forall p outs, In p pairs -> iterated_ewma (pair_params mpv mpc None false p) (frame_take k returns) = Ok outs -> 1 <= w < length outs ->
      exists covs weights mc mw, cm_iewma LA label to_mat to_vec reg slv (frame_take k returns) pairs mpv mpc (Some w) = Ok (covs, weights) /\
        covs' = covs ++ mc /\ weights' = weights ++ mw /\
        length covs = length outs - w /\ length weights = length outs - w /\ late (l_mat LA) mc /\ late (list (l_num LA)) mw
  | Raise e => e = IndexError /\ late (l_mat LA) covs' /\ late (list (l_num LA)) weights'
  end.
Proof.
  intros N LA label to_mat to_vec reg fast rest mpv mpc returns k slv w covs' weights' pairs H1 H2 H3 H4 H5.
  exact (cm_no_look_ahead LA label to_mat to_vec reg fast rest mpv mpc H1 H2 returns k H3 H4 slv w covs' weights' H5).
Qed.
Print Assumptions C123_no_look_ahead.

(** All or nothing: one date on which the solver fails, and the cell raises AttributeError. *)
Theorem C124_all_or_nothing : forall (N : Num) (LA : LinAlg) (label : option num * option num -> string)
  (to_mat : frame string -> l_mat LA) (to_vec : vec -> l_vec LA) (reg : l_mat LA -> l_mat LA) returns pairs mpv mpc slv window c items,
  cm_build LA label to_mat to_vec reg returns pairs mpv mpc = Ok c -> solve LA slv c window None = (items, None) -> In None items ->
  cm_iewma LA label to_mat to_vec reg slv returns pairs mpv mpc window = Raise AttributeError.
Proof. exact @cell_none. Qed.
Print Assumptions C124_all_or_nothing.

(** Concrete cases are in PropCm.v (C123_case; C124_case_failed). *)
