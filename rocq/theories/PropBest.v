(** * The combined predictor against its experts, and an optimiser with a tolerance (C129, C130).

    Models: Combination.v with the real matrices of RealLA.v.  Vocabulary: SpecComb.v, SpecCombR.v ([gauss_loglik],
    [cov_of], [mean_of]), SpecNear.v ([nearly_optimal], [returns_nearly], [near_result]). *)
From Coq Require Import Reals Lra ZArith String List Lia Permutation.
Set Warnings "-notation-overridden,-ambiguous-paths".
From mathcomp Require Import all_ssreflect all_algebra.
From Verif Require Import RStruct MatR Spec Num Py Combination SpecComb CombBuild CombProps RealLA SpecCombR SpecNear CombExact CombOk CombEx CombBest CombMore CombNear FromExRun FromEx.
Set Implicit Arguments.
Unset Strict Implicit.
Unset Printing Implicit Defensive.
Import GRing.Theory.
Local Open Scope ring_scope.
Delimit Scope R_scope with re.
Delimit Scope Z_scope with z.

(** Exact arithmetic for the experts in s. *)
Local Notation LA s := (RLA _ (List.length s)).

(** C129: over the window an item was fitted on, no single expert has a higher log-likelihood than the combined predictor. *)
Theorem C129_best_expert : forall n (sigmas : covs n) (means : option (mus n)) (returns : rets n) (c : comb (LA sigmas))
    slv window times items ex r,
  dicts sigmas -> from_sigmas (LA sigmas) sigmas returns means = Ok c -> all_sym sigmas -> increasing (forecast_times (LA sigmas) sigmas) ->
  returns_optimal slv -> solve (LA sigmas) slv c window times = (items, ex) -> List.In (Some r) items ->
  exists pairs, List.length pairs = eff (List.length (forecast_times (LA sigmas) sigmas)) window /\
    (forall s u, List.In (s, u) pairs -> consecutive (forecast_times (LA sigmas) sigmas) s u) /\
    (exists a, List.map snd pairs = sub (scored (LA sigmas) sigmas) a (List.length pairs)) /\
    List.last (List.map snd pairs) Z0 = r_time (LA sigmas) r /\
    exists pred, (forall s u, List.In (s, u) pairs -> result_at (LA sigmas) c s (r_weights (LA sigmas) r) = Ok (pred s)) /\
    forall k, (k < List.length sigmas)%N -> exists S, (forall s u, List.In (s, u) pairs -> cov_of sigmas k s = Some (S s)) /\
      (\sum_(su <- pairs) gauss_loglik (return_at (LA sigmas) returns su.2) (mean_of means sigmas k su.1) (S su.1)
       <= \sum_(su <- pairs) gauss_loglik (return_at (LA sigmas) returns su.2) (r_mean (LA sigmas) (pred su.1)) (r_cov (LA sigmas) (pred su.1)))%re.
Proof. move=> n sigmas means returns c slv window times items ex r H1 H2 H3 H4 H5 H6 H7. exact: (best_in_window H1 H2 H3 H4 H5 H6 H7). Qed.
Print Assumptions C129_best_expert.

(** C129: nor has any combination of a sub-collection of the experts, whatever its weights. *)
Theorem C129_more_experts : forall n (some extra all : covs n) (means : option (mus n)) (returns : rets n)
    (c : comb (LA some)) (c' : comb (LA all)) slv window times items ex r w,
  dicts all -> Permutation (List.app some extra) all ->
  from_sigmas (LA some) some returns means = Ok c -> from_sigmas (LA all) all returns means = Ok c' ->
  all_sym all -> increasing (forecast_times (LA all) all) ->
  returns_optimal slv -> feasible (List.length some) w -> solve (LA all) slv c' window times = (items, ex) -> List.In (Some r) items ->
  exists pairs, List.length pairs = eff (List.length (forecast_times (LA all) all)) window /\
    (forall t u, List.In (t, u) pairs -> consecutive (forecast_times (LA all) all) t u) /\
    (exists a, List.map snd pairs = sub (scored (LA all) all) a (List.length pairs)) /\
    List.last (List.map snd pairs) Z0 = r_time (LA all) r /\
    exists pred few, (forall t u, List.In (t, u) pairs ->
        result_at (LA all) c' t (r_weights (LA all) r) = Ok (pred t) /\ result_at (LA some) c t w = Ok (few t)) /\
      (\sum_(su <- pairs) gauss_loglik (return_at (LA some) returns su.2) (r_mean (LA some) (few su.1)) (r_cov (LA some) (few su.1))
       <= \sum_(su <- pairs) gauss_loglik (return_at (LA some) returns su.2) (r_mean (LA all) (pred su.1)) (r_cov (LA all) (pred su.1)))%re.
Proof.
  move=> n some extra all means returns c c' slv window times items ex r w H1 H2 H3 H4 H5 H6 H7 H8 H9 H10.
  exact: (@more_experts n some extra all means returns H1 H2 c c' H3 H4 H5 H6 slv window times items ex r w H7 H8 H9 H10).
Qed.
Print Assumptions C129_more_experts.

(** C130: however small d, an optimiser that is within some eps of optimal gives the same run up to d. *)
Theorem C130_stable : forall n (sigmas : covs n) (means : option (mus n)) (returns : rets n) (c : comb (LA sigmas))
    slv window times items d,
  dicts sigmas -> from_sigmas (LA sigmas) sigmas returns means = Ok c -> all_sym sigmas -> increasing (forecast_times (LA sigmas) sigmas) ->
  (0 < d)%re -> returns_optimal slv -> solve (LA sigmas) slv c window times = (items, None) ->
  exists eps, (0 < eps)%re /\ forall slv', returns_nearly eps slv' ->
    exists items', solve (LA sigmas) slv' c window times = (items', None) /\ List.length items' = List.length items /\
    forall j r r', List.nth_error items j = Some (Some r) -> List.nth_error items' j = Some (Some r') -> near_result d r r'.
Proof. move=> n sigmas means returns c slv window times items d H1 H2 H3 H4 H5 H6 H7. exact: (near_run H1 H2 H3 H4 H5 H6 H7). Qed.
Print Assumptions C130_stable.

(** One asset with returns 1, 2, 4, 8, half-lives 1 and 1/2, a window of 2: two results. *)
Lemma fr_sym : all_sym fr_s.
Proof. move=> ks tS H1 H2. by case: (fr_spd H1 H2). Qed.
Lemma fr_case : exists c r3 r4, from_sigmas (LA fr_s) fr_s fr_rows (Some fr_m) = Ok c /\ solve (LA fr_s) (@best 1 2) c (Some 2%N) None = ([:: Some r3; Some r4], None).
Proof. have [c [r3 [r4 [Hc Hs]]]] := fr_run. exists c, r3, r4. split=> //. by rewrite -fr_comb. Qed.
Example C129_case : exists c r3 r4, from_sigmas (LA fr_s) fr_s fr_rows (Some fr_m) = Ok c /\
  solve (LA fr_s) (@best 1 2) c (Some 2%N) None = ([:: Some r3; Some r4], None) /\
  exists pairs : list (Z * Z), List.length pairs = 2%N /\ List.last (List.map snd pairs) Z0 = r_time (LA fr_s) r4.
Proof.
  have [c [r3 [r4 [Hc Hs]]]] := fr_case. exists c, r3, r4. split=> //. split=> //.
  have [pairs [H1 [_ [_ [H2 _]]]]] := C129_best_expert fr_dicts Hc fr_sym fr_inc (@best_opt 1 2) Hs (or_intror (or_introl erefl)).
  by exists pairs.
Qed.
Definition fr_one : covs 1 := [:: ("1-1"%string, fr_exp 1)].
Definition fr_two : covs 1 := [:: ("0.5-0.5"%string, fr_exp (/ 2))].
Example C129_case_one : exists c c' r3 r4, from_sigmas (LA fr_two) fr_two fr_rows (Some fr_m) = Ok c /\ from_sigmas (LA fr_s) fr_s fr_rows (Some fr_m) = Ok c' /\
  Permutation (List.app fr_two fr_one) fr_s /\
  solve (LA fr_s) (@best 1 2) c' (Some 2%N) None = ([:: Some r3; Some r4], None) /\ feasible 1 [:: 1].
Proof.
  have [c' [r3 [r4 [Hc Hs]]]] := fr_case.
  have D1 : dicts fr_two by split; [repeat constructor; cbn; intuition discriminate|repeat constructor; cbn; intuition lia].
  have S1 : all_spd fr_two by move=> ks tS [<-|[]]; apply: fr_spd; right; left.
  have [c Hc1] : exists c, from_sigmas (LA fr_two) fr_two fr_rows (Some fr_m) = Ok c.
    eexists. apply: from_sigmas_ok => //; [by move=> ks t [<-|[]]|exact: spd_factors|by move=> ks [<-|[]]; exists fr_mu].
  exists c, c', r3, r4. split=> //. split=> //. split; first by apply: perm_swap. split=> //. split=> //. split; first by case=> [|k] // _; exact: Rle_0_1. by rewrite big_ord_recl big_ord0 addr0.
Qed.
Example C130_case : exists c r3 r4 eps, from_sigmas (LA fr_s) fr_s fr_rows (Some fr_m) = Ok c /\
  solve (LA fr_s) (@best 1 2) c (Some 2%N) None = ([:: Some r3; Some r4], None) /\ (0 < eps)%re /\
  forall slv', returns_nearly eps slv' -> exists items', solve (LA fr_s) slv' c (Some 2%N) None = (items', None) /\ List.length items' = 2%N /\
    forall r', List.nth_error items' 1 = Some (Some r') -> near_result (/ 100)%re r4 r'.
Proof.
  have [c [r3 [r4 [Hc Hs]]]] := fr_case. have Hp : (0 < / 100)%re by lra.
  have [eps [He H]] := C130_stable fr_dicts Hc fr_sym fr_inc Hp (@best_opt 1 2) Hs. exists c, r3, r4, eps. do 3 (split=> //).
  move=> slv' Hn. have [items' [E [L P]]] := H slv' Hn. exists items'. split=> //. split=> // r' Hr'. exact: P Hr'.
Qed.
