(** * C118: CovarianceCombination.from_ewmas needs positive definite experts. *)
From Coq Require Import Reals Lra ZArith String List Lia.
Set Warnings "-notation-overridden,-ambiguous-paths".
From mathcomp Require Import all_ssreflect all_algebra.
From Verif Require Import RStruct MatR Spec Num Py Ewma SpecEwma Combination SpecComb FromEwmas SpecFrom RealLA SpecRank SpecRankR FromRank RankEx.
Import ListNotations.
Local Open Scope coq_nat_scope.

(** If every covariance of every expert is positive definite the combination is built, with one weight per label. *)
Theorem C118_definite : forall (K : nat) (label : option xr * option xr -> string) (returns : frame (N := XR) time),
  let n := List.length (fcols returns) in
  forall (to_mat : frame (N := XR) string -> 'M[R]_n) (to_vec : list xr -> 'cV[R]_n) x pairs mpv mpc clip_at rc mean,
  reads_matrix n to_mat -> valid_returns returns -> returns_are true returns x -> positive_halflives pairs -> clip_is clip_at rc ->
  Nat.max 1 mpv <= List.length (findex returns) -> moved mean x n (first_pos mpv) ->
  (forall p outs o, List.In p pairs -> iterated_ewma (pair_params (N := XR) mpv mpc clip_at mean p) returns = Ok outs -> List.In o outs -> definite_item n o) ->
  exists c, from_ewmas (N := XR) (RLA n K) label to_mat to_vec returns pairs mpv mpc clip_at mean = Ok c /\
            K_of (RLA n K) c = List.length (firsts (List.map label pairs)).
Proof. intros K label returns n to_mat to_vec. intros. eapply from_definite; eauto. Qed.

(** One covariance that is free of NaN and not positive definite, of any expert, makes from_ewmas raise LinAlgError. *)
Theorem C118_indefinite : forall (K : nat) (label : option xr * option xr -> string) (returns : frame (N := XR) time),
  let n := List.length (fcols returns) in
  forall (to_mat : frame (N := XR) string -> 'M[R]_n) (to_vec : list xr -> 'cV[R]_n) x pairs mpv mpc clip_at rc mean p outs o,
  reads_matrix n to_mat -> valid_returns returns -> returns_are true returns x -> positive_halflives pairs -> clip_is clip_at rc ->
  Nat.max 1 mpv <= List.length (findex returns) -> moved mean x n (first_pos mpv) ->
  List.NoDup (List.map label pairs) -> List.In p pairs -> iterated_ewma (pair_params (N := XR) mpv mpc clip_at mean p) returns = Ok outs -> List.In o outs ->
  nan_free_item n o -> ~ definite_item n o ->
  from_ewmas (N := XR) (RLA n K) label to_mat to_vec returns pairs mpv mpc clip_at mean = Raise LinAlgError.
Proof. intros K label returns n to_mat to_vec. intros. eapply from_indefinite; eauto. Qed.

(** min_periods_cov (one more with mean = True) must not be smaller than the number of assets: else, if there is a forecast
    at all and the experts' first covariances are free of NaN, from_ewmas raises LinAlgError. *)
Theorem C118_too_few : forall (K : nat) (label : option xr * option xr -> string) (returns : frame (N := XR) time),
  let n := List.length (fcols returns) in
  forall (to_mat : frame (N := XR) string -> 'M[R]_n) (to_vec : list xr -> 'cV[R]_n) x pairs mpv mpc clip_at rc mean,
  reads_matrix n to_mat -> valid_returns returns -> returns_are true returns x -> positive_halflives pairs -> clip_is clip_at rc ->
  Nat.max 1 mpv <= List.length (findex returns) -> moved mean x n (first_pos mpv) ->
  pairs <> [] -> first_pos mpv + first_pos mpc < List.length (findex returns) ->
  first_pos mpc + (if mean then 0 else 1)%nat < n ->
  (forall p outs o, List.In p pairs -> iterated_ewma (pair_params (N := XR) mpv mpc clip_at mean p) returns = Ok outs ->
     List.nth_error outs 0 = Some o -> nan_free_item n o) ->
  from_ewmas (N := XR) (RLA n K) label to_mat to_vec returns pairs mpv mpc clip_at mean = Raise LinAlgError.
Proof. intros K label returns n to_mat to_vec. intros. eapply from_too_few; eauto. Qed.
Print Assumptions C118_definite.
Print Assumptions C118_indefinite.
Print Assumptions C118_too_few.

(** Two assets, two experts: min_periods_cov = 1 fails, 2 succeeds. *)
Definition rk_pairs : list (option xr * option xr) := [(Some (Fin (IZR 2)), Some (Fin (IZR 3))); (Some (Fin (IZR 1)), Some (Fin (IZR 2)))].
Definition rk_mat (f : frame (N := XR) string) : 'M[R]_2 := \matrix_(i, j) xval (List.nth j (List.nth i (fvals f) []) NaN).
Lemma rk_reads : reads_matrix 2 rk_mat.
Proof. intros o _ i j. rewrite mxE. reflexivity. Qed.
Lemma rk_hyps : valid_returns rk_f /\ returns_are true rk_f rk_x /\ positive_halflives rk_pairs /\ clip_is None None /\
  Nat.max 1 1 <= List.length (findex rk_f) /\ moved false rk_x 2 (first_pos 1).
Proof.
  split; [apply rk_valid|]. split; [apply rk_returns|]. split.
  - intros p [<-|[<-|[]]]; [exists (IZR 2), (IZR 3)|exists (IZR 1), (IZR 2)]; repeat split; lra.
  - split; [left; auto|]. split; [simpl; lia|]. exists 0, 0. simpl. unfold rk_x, first_pos; simpl. split; [lia|]. split; [lia|lra].
Qed.
Example C118_case_few K label to_vec : from_ewmas (N := XR) (RLA 2 K) label rk_mat to_vec rk_f rk_pairs 1 1 None false = Raise LinAlgError.
Proof.
  destruct rk_hyps as (H1 & H2 & H3 & H4 & H5 & H6).
  eapply (C118_too_few K label rk_f rk_mat to_vec); eauto; try exact rk_reads; try discriminate; try (simpl; lia).
  intros p outs o [<-|[<-|[]]] E Ho; [apply (rk_single_nan_free 2 3 ltac:(lra) ltac:(lra) outs o E Ho)|apply (rk_single_nan_free 1 2 ltac:(lra) ltac:(lra) outs o E Ho)].
Qed.
Example C118_case_enough K label to_vec : exists c, from_ewmas (N := XR) (RLA 2 K) label rk_mat to_vec rk_f rk_pairs 1 2 None false = Ok c.
Proof.
  destruct rk_hyps as (H1 & H2 & H3 & H4 & H5 & H6).
  destruct (C118_definite K label rk_f rk_mat to_vec rk_x rk_pairs 1 2 None None false rk_reads H1 H2 H3 H4 H5 H6) as (c & E & _); [|exists c; exact E].
  intros p outs o [<-|[<-|[]]] E Ho; [apply (rk_definite 2 3 ltac:(lra) ltac:(lra) outs o E Ho)|apply (rk_definite 1 2 ltac:(lra) ltac:(lra) outs o E Ho)].
Qed.
