(** * Properties of cvx/covariance/combination.py in exact arithmetic (C16, C19-C22, C26-C29, C56).

    Models: Combination.v with the real matrices of RealLA.v ([RLA n K], the objective and constraints of the
    optimisation problem).  Vocabulary: SpecComb.v, SpecCombR.v; [spd], [sym], [is_chol], [qf] in MatR.v. *)
From Coq Require Import Reals Lra ZArith String List Lia Permutation.
Set Warnings "-notation-overridden,-ambiguous-paths".
From mathcomp Require Import all_ssreflect all_algebra.
From Verif Require Import RStruct MatR Spec Num Py Combination SpecComb CombBuild CombProps RealLA SpecCombR CombExact CombExist CombOk CombPerm CombScale CombDegen CombEx.
Set Implicit Arguments.
Unset Strict Implicit.
Unset Printing Implicit Defensive.
Import GRing.Theory.
Local Open Scope ring_scope.
Delimit Scope R_scope with re.

(** Exact arithmetic for the experts in s. *)
Local Notation LA s := (RLA _ (List.length s)).

(** C16 *)
Theorem C16_combined_covariance : forall n (sigmas : covs n) (means : option (mus n)) (returns : rets n) (c : comb (LA sigmas))
    slv window times items ex r,
  dicts sigmas -> from_sigmas (LA sigmas) sigmas returns means = Ok c -> all_sym sigmas ->
  returns_feasible slv -> solve (LA sigmas) slv c window times = (items, ex) -> List.In (Some r) items ->
  let w := r_weights (LA sigmas) r in
  let t := r_time (LA sigmas) r in
  let K := List.length sigmas in
  spd (r_cov (LA sigmas) r) /\ feasible K w /\
  exists F, factors_at sigmas t F /\
    invmx (r_cov (LA sigmas) r) = avg_factor K F w *m (avg_factor K F w)^T /\
    (avg_factor K F w)^T *m r_mean (LA sigmas) r = avg_nu K F (fun k => mean_of means sigmas k t) w.
Proof. move=> n sigmas means returns c slv window times items ex r H1 H2 H3 H4 H5 H6. exact: (exact_cov H1 H2 H3 H4 H5 H6). Qed.
Print Assumptions C16_combined_covariance.

(** C19.  The objective is what cvxpy maximises (RealLA.objective); [result_at] is the combined predictor. *)
Theorem C19_objective_is_loglik : forall n (sigmas : covs n) (means : option (mus n)) (returns : rets n) (c : comb (LA sigmas))
    window times todo t p,
  dicts sigmas -> from_sigmas (LA sigmas) sigmas returns means = Ok c -> all_sym sigmas ->
  increasing (forecast_times (LA sigmas) sigmas) ->
  prepare (LA sigmas) c window times = Ok todo -> List.In (t, p) todo ->
  exists pairs, List.length pairs = eff (List.length (forecast_times (LA sigmas) sigmas)) window /\
    (forall s u, List.In (s, u) pairs -> consecutive (forecast_times (LA sigmas) sigmas) s u) /\
    (exists a, List.map snd pairs = sub (scored (LA sigmas) sigmas) a (List.length pairs)) /\
    List.last (List.map snd pairs) Z0 = t /\
    forall w, feasible (List.length sigmas) w -> exists pred,
      (forall s u, List.In (s, u) pairs -> result_at (LA sigmas) c s w = Ok (pred s)) /\
      objective (rows_of p) p w =
      (\sum_(su <- pairs) gauss_loglik (return_at (LA sigmas) returns su.2) (r_mean (LA sigmas) (pred su.1))
                                       (r_cov (LA sigmas) (pred su.1))
       + INR (n * List.length pairs) / 2 * ln (2 * PI))%re.
Proof. move=> n sigmas means returns c window times todo t p H1 H2 H3 H4 H5 H6. exact: (exact_likelihood H1 H2 H3 H4 H5 H6). Qed.
Print Assumptions C19_objective_is_loglik.

(** C20 *)
Theorem C20_one_optimum : forall n (sigmas : covs n) (means : option (mus n)) (returns : rets n) (c : comb (LA sigmas))
    window times todo t p,
  dicts sigmas -> from_sigmas (LA sigmas) sigmas returns means = Ok c -> all_sym sigmas ->
  increasing (forecast_times (LA sigmas) sigmas) ->
  prepare (LA sigmas) c window times = Ok todo -> List.In (t, p) todo ->
  exists w, optimal p w /\ forall w', optimal p w' -> w' = w.
Proof. move=> n sigmas means returns c window times todo t p H1 H2 H3 H4 H5 H6. exact: (exact_optimum H1 H2 H3 H4 H5 H6). Qed.
Print Assumptions C20_one_optimum.
Theorem C20_expert_order : forall n (sigmas sigmas' : covs n) (means : option (mus n)) (returns : rets n)
    (c : comb (LA sigmas)) (c' : comb (LA sigmas')) slv slv' window times items items',
  dicts sigmas -> Permutation sigmas sigmas' ->
  from_sigmas (LA sigmas) sigmas returns means = Ok c -> from_sigmas (LA sigmas') sigmas' returns means = Ok c' ->
  all_sym sigmas -> (forall ks, List.In ks sigmas -> increasing (List.map fst (snd ks))) ->
  returns_optimal slv -> returns_optimal slv' ->
  solve (LA sigmas) slv c window times = (items, None) -> solve (LA sigmas') slv' c' window times = (items', None) ->
  List.length items = List.length items' /\
  forall j r r', List.nth_error items j = Some (Some r) -> List.nth_error items' j = Some (Some r') ->
    r_time (LA sigmas) r = r_time (LA sigmas') r' /\ (r_mean (LA sigmas) r : 'cV[R]_n) = r_mean (LA sigmas') r' /\
    (r_cov (LA sigmas) r : 'M[R]_n) = r_cov (LA sigmas') r' /\
    forall name, weight_of sigmas (r_weights (LA sigmas) r) name = weight_of sigmas' (r_weights (LA sigmas') r') name.
Proof.
move=> n sigmas sigmas' means returns c c' slv slv' window times items items' H1 H2 H3 H4 H5 H6 H7 H8 H9 H10.
exact: (perm_run H1 H2 H3 H4 H5 H6 H7 H8 H9 H10).
Qed.
Print Assumptions C20_expert_order.

(** C21, C22.  The weights need only sum to one. *)
Theorem C21_single_expert : forall n (sigmas : covs n) (means : option (mus n)) (returns : rets n) (c : comb (LA sigmas))
    slv window times items ex r,
  List.length sigmas = 1%N -> dicts sigmas -> from_sigmas (LA sigmas) sigmas returns means = Ok c -> all_sym sigmas ->
  returns_feasible slv -> solve (LA sigmas) slv c window times = (items, ex) -> List.In (Some r) items ->
  r_weights (LA sigmas) r = [:: 1] /\
  cov_of sigmas 0 (r_time (LA sigmas) r) = Some (r_cov (LA sigmas) r) /\
  (r_mean (LA sigmas) r : 'cV[R]_n) = mean_of means sigmas 0 (r_time (LA sigmas) r).
Proof.
move=> n sigmas means returns c slv window times items ex r H0 H1 H2 H3 H4 H5 H6.
have [_ [Hw [F [Hf _]]]] := exact_cov H1 H2 H3 H4 H5 H6.
have [S [HS _]] := Hf 0%N (eq_leq (esym H0)).
have Hs : forall h p w, slv h p = Some w -> size w = List.length sigmas /\ \sum_(k < List.length sigmas) nth 0 w k = 1.
  by move=> h p w /H4 [? [_ ?]].
have Ha : forall k, (k < List.length sigmas)%N -> cov_of sigmas k (r_time (LA sigmas) r) = Some S /\
    mean_of means sigmas k (r_time (LA sigmas) r) = mean_of means sigmas 0 (r_time (LA sigmas) r).
  move=> k Hk. have -> : k = 0%N by move: Hk; rewrite H0; case: (k).
  by [].
have [-> ->] := exact_agree H1 H2 H3 Hs H5 H6 Ha.
split=> //. move: Hw. move: (r_weights _ r) => wl. rewrite H0 => -[].
case: wl => [|a [|b l]] //= _ [_]. by rewrite big_ord1 /= => ->.
Qed.
Print Assumptions C21_single_expert.
Theorem C22_agreement : forall n (sigmas : covs n) (means : option (mus n)) (returns : rets n) (c : comb (LA sigmas))
    slv window times items ex r S m,
  dicts sigmas -> from_sigmas (LA sigmas) sigmas returns means = Ok c -> all_sym sigmas ->
  (forall h p w, slv h p = Some w -> size w = List.length sigmas /\ \sum_(k < List.length sigmas) nth 0 w k = 1) ->
  solve (LA sigmas) slv c window times = (items, ex) -> List.In (Some r) items ->
  (forall k, (k < List.length sigmas)%N ->
     cov_of sigmas k (r_time (LA sigmas) r) = Some S /\ mean_of means sigmas k (r_time (LA sigmas) r) = m) ->
  r_cov (LA sigmas) r = S /\ r_mean (LA sigmas) r = m.
Proof.
move=> n sigmas means returns c slv window times items ex r S m H1 H2 H3 H4 H5 H6 H7.
exact: (exact_agree H1 H2 H3 H4 H5 H6 H7).
Qed.
Print Assumptions C22_agreement.

(** C26.  [positions] are the windows the run looks at. *)
Theorem C26_degenerate_window : forall n (sigmas : covs n) (means : option (mus n)) (returns : rets n) (c : comb (LA sigmas))
    window times slv i,
  dicts sigmas -> from_sigmas (LA sigmas) sigmas returns means = Ok c ->
  increasing (forecast_times (LA sigmas) sigmas) -> returns_known (LA sigmas) sigmas returns ->
  (2 <= List.length (forecast_times (LA sigmas) sigmas))%coq_nat -> valid_times (LA sigmas) sigmas times ->
  let w := eff (List.length (forecast_times (LA sigmas) sigmas)) window in
  List.In i (positions (scored (LA sigmas) sigmas) w times) ->
  ~ spd (quad (LA sigmas) sigmas means returns (window_at (LA sigmas) sigmas w i) : 'M[R]_(List.length sigmas)) ->
  solve (LA sigmas) slv c window times = (nil, Some LinAlgError).
Proof.
move=> n sigmas means returns c window times slv i H1 H2 H3 H4 H5 H6 w H7 H8.
exact: (degenerate_run H1 H2 H3 H4 H5 H6 slv H7 H8).
Qed.
Print Assumptions C26_degenerate_window.
Theorem C26_identical_experts : forall n (sigmas : covs n) (means : option (mus n)) (returns : rets n) (c : comb (LA sigmas))
    window times slv i k1 k2,
  dicts sigmas -> from_sigmas (LA sigmas) sigmas returns means = Ok c ->
  increasing (forecast_times (LA sigmas) sigmas) -> returns_known (LA sigmas) sigmas returns ->
  (2 <= List.length (forecast_times (LA sigmas) sigmas))%coq_nat -> valid_times (LA sigmas) sigmas times ->
  let w := eff (List.length (forecast_times (LA sigmas) sigmas)) window in
  List.In i (positions (scored (LA sigmas) sigmas) w times) ->
  (k1 < List.length sigmas)%N -> (k2 < List.length sigmas)%N -> k1 <> k2 ->
  (forall s u, consecutive (forecast_times (LA sigmas) sigmas) s u -> List.In u (window_at (LA sigmas) sigmas w i) ->
     cov_of sigmas k1 s = cov_of sigmas k2 s /\ mean_of means sigmas k1 s = mean_of means sigmas k2 s) ->
  solve (LA sigmas) slv c window times = (nil, Some LinAlgError).
Proof.
move=> n sigmas means returns c window times slv i k1 k2 H1 H2 H3 H4 H5 H6 w H7 H8 H9 H10 H11.
exact: (identical_run H1 H2 H3 H4 H5 H6 slv H7 H8 H9 H10 H11).
Qed.
Print Assumptions C26_identical_experts.
Theorem C26_too_few_numbers : forall n (sigmas : covs n) (means : option (mus n)) (returns : rets n) (c : comb (LA sigmas))
    window times slv i,
  dicts sigmas -> from_sigmas (LA sigmas) sigmas returns means = Ok c ->
  increasing (forecast_times (LA sigmas) sigmas) -> returns_known (LA sigmas) sigmas returns ->
  (2 <= List.length (forecast_times (LA sigmas) sigmas))%coq_nat -> valid_times (LA sigmas) sigmas times ->
  let w := eff (List.length (forecast_times (LA sigmas) sigmas)) window in
  List.In i (positions (scored (LA sigmas) sigmas) w times) ->
  (n * w < List.length sigmas)%N ->
  solve (LA sigmas) slv c window times = (nil, Some LinAlgError).
Proof.
move=> n sigmas means returns c window times slv i H1 H2 H3 H4 H5 H6 w H7 H8.
exact: (short_run H1 H2 H3 H4 H5 H6 slv H7 H8).
Qed.
Print Assumptions C26_too_few_numbers.

(** C27: positive definite experts that share their times can be combined; symmetric ones that are not
    positive definite cannot. *)
Theorem C27_positive_definite : forall n (sigmas : covs n) (means : option (mus n)) (returns : rets n),
  dicts sigmas -> same_times (LA sigmas) sigmas -> means_ok (LA sigmas) sigmas means -> all_sym sigmas ->
  (all_spd sigmas -> exists c, from_sigmas (LA sigmas) sigmas returns means = Ok c) /\
  (~ all_spd sigmas -> from_sigmas (LA sigmas) sigmas returns means = Raise LinAlgError).
Proof.
move=> n sigmas means returns H1 H2 H3 H4. split=> H5; first exact: healthy_build.
apply: from_sigmas_singular => // Hf. apply: H5. exact: factors_spd Hf.
Qed.
Print Assumptions C27_positive_definite.

(** C10: a forecast in which some asset has a zero row (variance and covariances 0, the outcome of the trap of C10_trap)
    cannot be combined with anything. *)
Theorem C10_cannot_be_combined : forall n (sigmas : covs n) (means : option (mus n)) (returns : rets n) expert forecast i,
  means_ok (LA sigmas) sigmas means -> List.In expert sigmas -> List.In forecast (snd expert) ->
  (forall j, (snd forecast) i j = 0) ->
  from_sigmas (LA sigmas) sigmas returns means = Raise LinAlgError.
Proof. exact: zero_variance_fails. Qed.
Print Assumptions C10_cannot_be_combined.

(** C28 *)
Theorem C28_units : forall n (a : R) (sigmas : covs n) (means : option (mus n)) (returns : rets n)
    (c : comb (LA sigmas)) (c' : comb (LA (scale_covs (a * a) sigmas))) slv slv' window times items items',
  (0 < a)%re -> dicts sigmas -> from_sigmas (LA sigmas) sigmas returns means = Ok c ->
  from_sigmas (LA (scale_covs (a * a) sigmas)) (scale_covs (a * a) sigmas) (scale_rets a returns)
              (option_map (scale_mus a) means) = Ok c' ->
  all_sym sigmas -> increasing (forecast_times (LA sigmas) sigmas) ->
  returns_optimal slv -> returns_optimal slv' ->
  solve (LA sigmas) slv c window times = (items, None) ->
  solve (LA (scale_covs (a * a) sigmas)) slv' c' window times = (items', None) ->
  List.length items = List.length items' /\
  forall j r r', List.nth_error items j = Some (Some r) -> List.nth_error items' j = Some (Some r') ->
    r_time (LA sigmas) r = r_time (LA (scale_covs (a * a) sigmas)) r' /\
    r_weights (LA (scale_covs (a * a) sigmas)) r' = r_weights (LA sigmas) r /\
    (r_mean (LA (scale_covs (a * a) sigmas)) r' : 'cV[R]_n) = a *: (r_mean (LA sigmas) r : 'cV[R]_n) /\
    (r_cov (LA (scale_covs (a * a) sigmas)) r' : 'M[R]_n) = (a * a) *: (r_cov (LA sigmas) r : 'M[R]_n).
Proof.
move=> n a sigmas means returns c c' slv slv' window times items items' H1 H2 H3 H4 H5 H6 H7 H8 H9 H10.
exact: (scale_run H1 H2 H3 H4 H5 H6 H7 H8 H9 H10).
Qed.
Print Assumptions C28_units.

(** C29 *)
Theorem C29_zero_means : forall n (sigmas : covs n) (means : option (mus n)) (returns : rets n) (c : comb (LA sigmas))
    slv window times items ex r,
  dicts sigmas -> from_sigmas (LA sigmas) sigmas returns means = Ok c ->
  (forall h p w, slv h p = Some w -> size w = List.length sigmas) ->
  solve (LA sigmas) slv c window times = (items, ex) -> List.In (Some r) items ->
  (forall k, (k < List.length sigmas)%N -> mean_of means sigmas k (r_time (LA sigmas) r) = 0) ->
  r_mean (LA sigmas) r = 0.
Proof.
move=> n sigmas means returns c slv window times items ex r H1 H2 H3 H4 H5 H6.
exact: (exact_zero_mean H1 H2 H3 H4 H5 H6).
Qed.
Print Assumptions C29_zero_means.

(** C56: what solve() needs in order to complete. *)
Theorem C56_healthy_run : forall n (sigmas : covs n) (means : option (mus n)) (returns : rets n) window times slv,
  dicts sigmas -> same_times (LA sigmas) sigmas -> all_spd sigmas -> means_ok (LA sigmas) sigmas means ->
  increasing (forecast_times (LA sigmas) sigmas) -> returns_known (LA sigmas) sigmas returns ->
  (2 <= List.length (forecast_times (LA sigmas) sigmas))%coq_nat -> valid_times (LA sigmas) sigmas times ->
  let w := eff (List.length (forecast_times (LA sigmas) sigmas)) window in
  (forall i, List.In i (positions (scored (LA sigmas) sigmas) w times) ->
     spd (quad (LA sigmas) sigmas means returns (window_at (LA sigmas) sigmas w i) : 'M[R]_(List.length sigmas))) ->
  returns_feasible slv ->
  exists c items, from_sigmas (LA sigmas) sigmas returns means = Ok c /\
    solve (LA sigmas) slv c window times = (items, None) /\
    List.length items = List.length (positions (scored (LA sigmas) sigmas) w times).
Proof.
move=> n sigmas means returns window times slv H1 H2 H3 H4 H5 H6 H7 H8 w H9 H10.
exact: (healthy_run H1 H2 H3 H4 H5 H6 H7 H8 H9 H10).
Qed.
Print Assumptions C56_healthy_run.

(** ** The hypotheses are met (CombEx.v): two assets, two experts, five forecast times, window 2. *)
Example C16_case : exists c items r, dicts (ex0 5) /\ from_sigmas (LA (ex0 5)) (ex0 5) (ex0r 5) None = Ok c /\ all_sym (ex0 5) /\
  returns_feasible (@best 2 2) /\ solve (LA (ex0 5)) best c (Some 2%N) None = (items, None) /\ List.In (Some r) items.
Proof.
have [//|c [todo [items [H1 [H2 [H3 [H4 [H5 [H6 [r H7]]]]]]]]]] := ex0_prepared 5 2 _; first lia.
exists c, items, r. split; first exact: ex_dicts. split=> //. split; first exact: ex0_sym.
by split; first exact: best_feasible.
Qed.
Example C19_C20_case : exists c todo t p, dicts (ex0 5) /\ from_sigmas (LA (ex0 5)) (ex0 5) (ex0r 5) None = Ok c /\ all_sym (ex0 5) /\
  increasing (forecast_times (LA (ex0 5)) (ex0 5)) /\ prepare (LA (ex0 5)) c (Some 2%N) None = Ok todo /\ List.In (t, p) todo.
Proof.
have [//|c [todo [items [H1 [H2 [H3 [H4 [H5 [H6 [r H7]]]]]]]]]] := ex0_prepared 5 2 _; first lia.
case: todo H2 H6 => [//|[t p] todo] H2 _. exists c, ((t, p) :: todo), t, p.
split; first exact: ex_dicts. split=> //. split; first exact: ex0_sym.
split; first exact: ex_inc. by split=> //; left.
Qed.
Example C20_order_case : exists c c' items items', dicts (ex0 5) /\ Permutation (ex0 5) (ex0_rev 5) /\
  from_sigmas (LA (ex0 5)) (ex0 5) (ex0r 5) None = Ok c /\ from_sigmas (LA (ex0_rev 5)) (ex0_rev 5) (ex0r 5) None = Ok c' /\
  all_sym (ex0 5) /\ (forall ks, List.In ks (ex0 5) -> increasing (List.map fst (snd ks))) /\ returns_optimal (@best 2 2) /\
  solve (LA (ex0 5)) best c (Some 2%N) None = (items, None) /\ solve (LA (ex0_rev 5)) best c' (Some 2%N) None = (items', None) /\
  List.length items = 3%N /\ List.Forall (fun r => r <> None) items /\ List.Forall (fun r => r <> None) items'.
Proof.
have [//|c [items [H1 [H2 [H3 H4]]]]] := ex0_run 5 2 _; first lia.
have [//|c' [items' [H1' [H2' [H3' H4']]]]] := @ex0_rev_run 5 2 _; first lia.
exists c, c', items, items'. split; first exact: ex_dicts. split; first exact: ex0_rev_perm. do 2 split=> //.
split; first exact: ex0_sym. split; first by move=> ks; exact: ex_inc_all. by split; first exact: best_opt.
Qed.
Example C28_case : exists c c' items items', dicts (ex0 5) /\ from_sigmas (LA (ex0 5)) (ex0 5) (ex0r 5) None = Ok c /\
  from_sigmas (LA (scale_covs (2 * 2)%re (ex0 5))) (scale_covs (2 * 2)%re (ex0 5)) (scale_rets 2%re (ex0r 5)) (option_map (scale_mus 2%re) None) = Ok c' /\
  solve (LA (ex0 5)) best c (Some 2%N) None = (items, None) /\
  solve (LA (scale_covs (2 * 2)%re (ex0 5))) best c' (Some 2%N) None = (items', None) /\
  List.length items = 3%N /\ List.Forall (fun r => r <> None) items /\ List.Forall (fun r => r <> None) items'.
Proof.
have [//|c [items [H1 [H2 [H3 H4]]]]] := ex0_run 5 2 _; first lia.
have [//|c' [items' [H1' [H2' [H3' H4']]]]] := @ex0_scaled_run 5 2 _; first lia.
exists c, c', items, items'. by split; first exact: ex_dicts.
Qed.
Example C26_identical_case : let s := same_experts 5 [:: "a"%string; "b"%string] in
  exists c, dicts s /\ from_sigmas (LA s) s (exr 5 1%re) None = Ok c /\ increasing (forecast_times (LA s) s) /\
  returns_known (LA s) s (exr 5 1%re) /\ List.length (forecast_times (LA s) s) = 5%N /\ valid_times (LA s) s None /\
  List.In 2%N (positions (scored (LA s) s) (eff 5 (Some 2%N)) None) /\
  forall t u, consecutive (forecast_times (LA s) s) t u -> List.In u (window_at (LA s) s 2 2) ->
    cov_of s 0 t = cov_of s 1 t /\ mean_of None s 0 t = mean_of None s 1 t.
Proof.
move=> s. have [|//|H1 [H2 [H3 [H4 [H5 [H6 [H7 H8]]]]]]] := @same_ok 5 [:: "a"%string; "b"%string] nil 2 _ _.
  repeat constructor; cbn; intuition discriminate.
have [c Hc] := @healthy_build 2 s None (exr 5 1%re) H1 H3 H2 I. exists c. do 5 split=> //. split=> //. split; first by cbn; tauto.
move=> t u [l1 [l2 E]] _. have Ht : List.In t (tsN 5) by rewrite -H4 E; apply/List.in_app_iff; right; left.
by rewrite !H8.
Qed.
Example C26_few_case : let s := same_experts 5 [:: "a"%string; "b"%string; "c"%string] in
  exists c, dicts s /\ from_sigmas (LA s) s (exr 5 1%re) None = Ok c /\ increasing (forecast_times (LA s) s) /\
  returns_known (LA s) s (exr 5 1%re) /\ List.length (forecast_times (LA s) s) = 5%N /\
  List.In 2%N (positions (scored (LA s) s) (eff 5 (Some 1%N)) None) /\ (2 * eff 5 (Some 1%N) < List.length s)%N.
Proof.
move=> s. have [|//|H1 [H2 [H3 [H4 [H5 [H6 [H7 H8]]]]]]] := @same_ok 5 [:: "a"%string; "b"%string; "c"%string] nil 3 _ _.
  repeat constructor; cbn; intuition discriminate.
have [c Hc] := @healthy_build 2 s None (exr 5 1%re) H1 H3 H2 I. exists c. do 5 split=> //. by split; [cbn; tauto|].
Qed.
Example C21_case : exists c items r, List.length (ex1 5) = 1%N /\ dicts (ex1 5) /\ from_sigmas (LA (ex1 5)) (ex1 5) (ex0r 5) None = Ok c /\
  all_sym (ex1 5) /\ returns_feasible (@best 2 1) /\ solve (LA (ex1 5)) best c (Some 2%N) None = (items, None) /\ List.In (Some r) items.
Proof.
have [|//|H1 [H2 _]] := @same_ok 5 [:: "a"%string] nil 1 _ _; first by repeat constructor; cbn.
have [//|c [items [G1 [G2 [G3 G4]]]]] := @ex1_run 5 2 _; first lia.
case: items G2 G3 G4 => [//|r items] G2 G3 G4. have := List.Forall_inv G4. case: r G2 {G3 G4} => [r|//] G2 _.
exists c, (Some r :: items), r. do 3 split=> //. split; first exact: spd_sym H2. split; first exact: best_feasible.
by split=> //; left.
Qed.
(** The experts of [exg] agree at the last time (5) and disagree before. *)
Example C22_case : exists c items r, dicts (exg 5) /\ from_sigmas (LA (exg 5)) (exg 5) (ex0r 5) None = Ok c /\ all_sym (exg 5) /\
  (forall h p w, @best 2 2 h p = Some w -> size w = 2%N /\ \sum_(k < 2) nth 0 w k = 1) /\
  solve (LA (exg 5)) best c (Some 4%N) None = (items, None) /\ List.In (Some r) items /\
  (forall k, (k < 2)%N -> cov_of (exg 5) k (r_time (LA (exg 5)) r) = Some (cv 1 1) /\
     mean_of None (exg 5) k (r_time (LA (exg 5)) r) = 0) /\
  cov_of (exg 5) 0 (Zpos xH) <> cov_of (exg 5) 1 (Zpos xH).
Proof.
have [//|c [items [G1 [G2 [G3 G4]]]]] := @exg_run 5 4 _; first lia.
have D : dicts (exg 5) by exact: ex_dicts.
case: items G2 G3 G4 => [//|r items] G2 G3 G4. have := List.Forall_inv G4. case: r G2 {G3 G4} => [r|//] G2 _.
have [_ Hr] := @schedule (RLA 2 2) (exg 5) (ex0r 5) None c best (Some 4%N) _ D G1 (@ex_inc _ _ _ _ _ _ _) (@ex_known _ _ _ _ _ _ _ _) (ltac:(by rewrite ex_len; lia)) G2.
have Et : r_time (RLA 2 2) r = (Z.of_nat 5) by have := Hr 0%N r erefl.
exists c, (Some r :: items), r. do 2 split=> //. split; first exact: spd_sym (@exg_spd 5).
split; first by move=> h p w /best_opt [[? [_ ?]] _].
do 2 split=> //; first by left. split.
  move=> k Hk. rewrite Et. split=> //. by case: k Hk => [|[|//]] _.
have E : cov_of (exg 5) 1 (Zpos xH) = Some (cv 1 2) by [].
rewrite E [cov_of _ _ _]/=. case. rewrite /cv /dg => /matrixP /(_ 1 1). rewrite !mxE /=. rewrite !mulr1n. lra.
Qed.
Example C27_case : dicts (ex0 4) /\ same_times (LA (ex0 4)) (ex0 4) /\ means_ok (LA (ex0 4)) (ex0 4) None /\ all_sym (ex0 4) /\ all_spd (ex0 4).
Proof. split; first exact: ex_dicts. split; first exact: ex_same. split=> //. split; [exact: ex0_sym|exact: ex0_spd]. Qed.
Definition ex_flat : covs 2 := [:: ("a"%string, [:: (Zpos xH, 0 : 'M[R]_2)])].
Example C27_flat_case : dicts ex_flat /\ same_times (LA ex_flat) ex_flat /\ all_sym ex_flat /\ ~ all_spd ex_flat.
Proof.
split; first by split; repeat constructor; cbn; intuition. split; first by move=> ks t [<-|[]].
split; first by move=> ks tS [<-|[]] [<-|[]]; rewrite /sym /= trmx0.
move=> H. have [_ /(_ (const_mx 1))] := H _ _ (or_introl erefl) (or_introl erefl).
rewrite /qf mulmx0 mul0mx mxE => H'. have : (0 < 0)%re by apply: H'; apply/eqP => /colP /(_ 0); rewrite !mxE; toR; lra.
by toR; lra.
Qed.
Example C10_combined_case : means_ok (LA ex_flat) ex_flat None /\ exists e f, List.In e ex_flat /\ List.In f (snd e) /\
  forall j, (snd f) 0 j = 0.
Proof. split=> //. exists ("a"%string, [:: (Zpos xH, 0 : 'M[R]_2)]), (Zpos xH, 0). do 2 (split; first by left). by move=> j; rewrite mxE. Qed.
Example C29_case : exists c items r, dicts (ex0 5) /\ from_sigmas (LA (ex0 5)) (ex0 5) (ex0r 5) None = Ok c /\
  solve (LA (ex0 5)) best c (Some 2%N) None = (items, None) /\ List.In (Some r) items /\
  forall k, (k < 2)%N -> mean_of None (ex0 5) k (r_time (LA (ex0 5)) r) = 0.
Proof. have [c [items [r [H1 [H2 [H3 [H4 [H5 H6]]]]]]]] := C16_case. by exists c, items, r. Qed.
Example C56_case : dicts (ex0 5) /\ same_times (LA (ex0 5)) (ex0 5) /\ all_spd (ex0 5) /\ means_ok (LA (ex0 5)) (ex0 5) None /\
  increasing (forecast_times (LA (ex0 5)) (ex0 5)) /\ returns_known (LA (ex0 5)) (ex0 5) (ex0r 5) /\
  (2 <= List.length (forecast_times (LA (ex0 5)) (ex0 5)))%coq_nat /\ valid_times (LA (ex0 5)) (ex0 5) None /\
  (forall i, List.In i (positions (scored (LA (ex0 5)) (ex0 5)) 2 None) ->
     spd (quad (LA (ex0 5)) (ex0 5) None (ex0r 5) (window_at (LA (ex0 5)) (ex0 5) 2 i) : 'M[R]_(List.length (ex0 5)))) /\
  returns_feasible (@best 2 2).
Proof.
split; first exact: ex_dicts. split; first exact: ex_same. split; first exact: ex0_spd. split=> //.
split; first exact: ex_inc. split; first exact: ex_known. split; first by rewrite ex_len; lia. split=> //.
split; last exact: best_feasible. move=> i Hi. have [|H1 H2] := @ex_positions 5 "a"%string "b"%string 1%re 1%re 1%re (fun _ => 2%re) 2 i _ Hi; first lia.
apply: (@ex_quad 5 "a"%string "b"%string 1%re 1%re 1%re (fun _ => 2%re) 1%re); try (toR; intros; lra); try by []; try exact: ex_ret; try (cbn in H1; lia).
Qed.
