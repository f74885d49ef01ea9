(** * Changes of assets (C28, C119): which re-expressions of the assets the combination of experts respects.

    Models: Combination.v with the real matrices of RealLA.v.  Vocabulary: SpecComb.v, SpecCombR.v and SpecMove.v
    ([unit_covs], [unit_mus], [unit_rets]: asset i multiplied by d i; [move_covs], [move_mus], [move_rets]: the assets
    replaced by the portfolios in the rows of T). *)
From Coq Require Import Reals Lra ZArith String List Lia.
Set Warnings "-notation-overridden,-ambiguous-paths".
From mathcomp Require Import all_ssreflect all_fingroup all_algebra.
From Verif Require Import RStruct MatR Num Py Combination SpecComb RealLA SpecCombR CombEx SpecMove CombMoveRun CombOrder.
Set Implicit Arguments.
Unset Strict Implicit.
Unset Printing Implicit Defensive.
Import GRing.Theory.
Local Open Scope ring_scope.
Delimit Scope R_scope with re.

(** C28: every asset in units of its own. *)
Theorem C28_assets : forall n (d : 'I_n -> R) (sigmas : covs n) (means : option (mus n)) (returns : rets n),
  let LA := RLA n (List.length sigmas) in let LA' := RLA n (List.length (unit_covs d sigmas)) in
  forall (c : comb LA) (slv : solver LA) (slv' : solver LA') window times items,
  (forall i, (0 < d i)%re) -> dicts sigmas -> from_sigmas LA sigmas returns means = Ok c -> all_sym sigmas ->
  increasing (forecast_times LA sigmas) ->
  returns_optimal slv -> returns_optimal slv' -> solve LA slv c window times = (items, None) ->
  exists c' items', from_sigmas LA' (unit_covs d sigmas) (unit_rets d returns) (option_map (unit_mus d) means) = Ok c' /\
    solve LA' slv' c' window times = (items', None) /\ List.length items = List.length items' /\
    forall j r r', List.nth_error items j = Some (Some r) -> List.nth_error items' j = Some (Some r') ->
      r_time LA r = r_time LA' r' /\ r_weights LA' r' = r_weights LA r /\
      (r_mean LA' r' : 'cV[R]_n) = unit_vec d (r_mean LA r : 'cV[R]_n) /\
      (r_cov LA' r' : 'M[R]_n) = unit_cov d (r_cov LA r : 'M[R]_n).
Proof.
move=> n d sigmas means returns LA LA' c slv slv' window times items H1 H2 H3 H4 H5 H6 H7 H8.
exact: (units_total H1 H2 H3 H4 H5 H6 H7 H8).
Qed.
Print Assumptions C28_assets.

(** C119: the assets replaced by portfolios, each a positive multiple of its asset plus a combination of later ones. *)
Theorem C119_triangular : forall n (T : 'M[R]_n) (sigmas : covs n) (means : option (mus n)) (returns : rets n),
  let LA := RLA n (List.length sigmas) in let LA' := RLA n (List.length (move_covs T sigmas)) in
  forall (c : comb LA) (slv : solver LA) (slv' : solver LA') window times items,
  (forall i j : 'I_n, (j < i)%N -> T i j = 0) -> (forall i, (0 < T i i)%re) ->
  dicts sigmas -> from_sigmas LA sigmas returns means = Ok c -> all_sym sigmas -> increasing (forecast_times LA sigmas) ->
  returns_optimal slv -> returns_optimal slv' -> solve LA slv c window times = (items, None) ->
  exists c' items', from_sigmas LA' (move_covs T sigmas) (move_rets T returns) (option_map (move_mus T) means) = Ok c' /\
    solve LA' slv' c' window times = (items', None) /\ List.length items = List.length items' /\
    forall j r r', List.nth_error items j = Some (Some r) -> List.nth_error items' j = Some (Some r') ->
      r_time LA r = r_time LA' r' /\ r_weights LA' r' = r_weights LA r /\
      (r_mean LA' r' : 'cV[R]_n) = T *m (r_mean LA r : 'cV[R]_n) /\
      (r_cov LA' r' : 'M[R]_n) = T *m (r_cov LA r : 'M[R]_n) *m T^T.
Proof.
move=> n T sigmas means returns LA LA' c slv slv' window times items H0 H1 H2 H3 H4 H5 H6 H7 H8.
exact: (upper_total H0 H1 H2 H3 H4 H5 H6 H7 H8).
Qed.
Print Assumptions C119_triangular.

(** ... but not the same assets listed in another order. *)
Theorem C119_order_matters : exists (sigmas : covs 2) (returns : rets 2), dicts sigmas /\ all_spd sigmas /\
  increasing (forecast_times (RLA 2 (List.length sigmas)) sigmas) /\
  let T : 'M[R]_2 := perm_mx (tperm 0 1) in
  let LA := RLA 2 (List.length sigmas) in let LA' := RLA 2 (List.length (move_covs T sigmas)) in
  forall (slv : solver LA) (slv' : solver LA'), returns_optimal slv -> returns_optimal slv' ->
  (forall h p, (exists w, optimal p w) -> slv h p <> None) -> (forall h p, (exists w, optimal p w) -> slv' h p <> None) ->
  exists c c' r r', from_sigmas LA sigmas returns None = Ok c /\ from_sigmas LA' (move_covs T sigmas) (move_rets T returns) None = Ok c' /\
    solve LA slv c (Some 1%N) None = ([:: Some r], None) /\ solve LA' slv' c' (Some 1%N) None = ([:: Some r'], None) /\
    r_time LA r = r_time LA' r' /\
    r_weights LA' r' <> r_weights LA r /\ (r_cov LA' r' : 'M[R]_2) <> T *m (r_cov LA r : 'M[R]_2) *m T^T.
Proof. exact: order_matters. Qed.
Print Assumptions C119_order_matters.

(** ** The hypotheses are met: two assets, two experts, five forecast times (CombEx.v); the second asset in thirds. *)
Definition ex_d (i : 'I_2) : R := if i == 0 then 2%re else 3%re.
Definition ex_T : 'M[R]_2 := m2 2 (-1) 0 3.
Example C28_assets_case : exists c items, (forall i, (0 < ex_d i)%re) /\ dicts (ex0 5) /\
  from_sigmas (RLA 2 (List.length (ex0 5))) (ex0 5) (ex0r 5) None = Ok c /\ all_sym (ex0 5) /\
  increasing (forecast_times (RLA 2 (List.length (ex0 5))) (ex0 5)) /\ returns_optimal (@best 2 2) /\
  returns_optimal (@best 2 (List.length (unit_covs ex_d (ex0 5)))) /\
  solve (RLA 2 (List.length (ex0 5))) best c (Some 2%N) None = (items, None) /\ List.length items = 3%N /\
  List.Forall (fun r => r <> None) items.
Proof.
have [//|c [items [H1 [H2 [H3 H4]]]]] := ex0_run 5 2 _; first lia.
exists c, items. split; first by move=> i; rewrite /ex_d; case: ifP => _; lra.
split; first exact: ex_dicts. split=> //. split; first exact: ex0_sym. split; first exact: ex_inc.
split; first exact: best_opt. split; first exact: best_opt. by [].
Qed.
Example C119_triangular_case : (forall i j : 'I_2, (j < i)%N -> ex_T i j = 0) /\ (forall i, (0 < ex_T i i)%re) /\ ex_T 0 1 <> 0.
Proof.
split; first by move=> i j; case: (ord2 i) => ->; case: (ord2 j) => -> //= _; rewrite mxE.
split; first by move=> i; case: (ord2 i) => ->; rewrite mxE /=; lra.
rewrite mxE /=. toR. lra.
Qed.
Example C119_order_matters_case : returns_optimal (@best 2 2) /\ (forall h p, (exists w, optimal p w) -> @best 2 2 h p <> None).
Proof. split; [exact: best_opt|exact: best_total]. Qed.
