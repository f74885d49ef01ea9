(** * C141: the sampling experiment of generative_mode.ipynb: what each sampled day is drawn from.

    Words used: [fit_cm_iewma], [run_sampling_experiment] (Sampling.v); [cm_iewma] (CmIewma.v, C123-C125); [frame_take] k f are the
    first k rows of f (EwmaPrefix.v); [finite_row]: every entry is a real number (SamplingFin.v). *)
From Coq Require Import Reals Lra ZArith String List Lia.
Set Warnings "-notation-overridden,-ambiguous-paths".
From mathcomp Require Import all_ssreflect all_algebra.
From Verif Require Import RStruct MatR Spec Num Py Ewma EwmaPrefix SpecEwma Combination SpecComb FromEwmas SpecFrom RealLA SpecCombR CombEx SpecRank SpecRankR SpecFromR SpecActive SpecExp FromExRun FromEx CmIewma CmEx PropFromR PropCm Sampling SamplingProps SamplingFin SamplingReal.
Import ListNotations.
Local Open Scope coq_nat_scope.
Delimit Scope Z_scope with z.

(** C141 (result): the training rows are kept, followed by one row per step, dated by the first test dates in order; row i is the
    i-th draw from the covariance fitted on the training rows and the rows sampled before it. *)
Theorem C141_structure : forall (N : Num) (LA : LinAlg) (label : option num * option num -> string)
  (to_mat : frame string -> l_mat LA) (to_vec : vec -> l_vec LA) (reg : l_mat LA -> l_mat LA)
  slv pairs mpv mpc window draw (train : frame time) test steps g,
  List.length (findex train) = List.length (fvals train) ->
  run_sampling_experiment LA label to_mat to_vec reg slv pairs mpv mpc window draw train test steps = Ok g ->
  exists rows, List.length rows = steps /\ List.length (List.firstn steps test) = steps /\
    g = mkFrame (findex train ++ List.firstn steps test)%list (fcols train) (fvals train ++ rows)%list /\
    forall i, i < steps -> exists c,
      fit_cm_iewma LA label to_mat to_vec reg slv pairs mpv mpc window (frame_take (List.length (findex train) + i) g) = Ok c /\
      draw i c = Ok (List.nth i rows []) /\ List.length (List.nth i rows []) = List.length (fcols train).
Proof. intros N LA label to_mat to_vec reg slv pairs mpv mpc window draw train test steps g. exact (structure LA label to_mat to_vec reg slv pairs mpv mpc window draw train test steps g). Qed.
Print Assumptions C141_structure.

(** C141 (no look-ahead): the first s sampled days depend neither on the number of steps nor on the later test dates. *)
Theorem C141_prefix : forall (N : Num) (LA : LinAlg) (label : option num * option num -> string)
  (to_mat : frame string -> l_mat LA) (to_vec : vec -> l_vec LA) (reg : l_mat LA -> l_mat LA)
  slv pairs mpv mpc window draw (train : frame time) test test' steps s g,
  List.length (findex train) = List.length (fvals train) ->
  run_sampling_experiment LA label to_mat to_vec reg slv pairs mpv mpc window draw train test steps = Ok g -> s <= steps ->
  List.firstn s test = List.firstn s test' ->
  run_sampling_experiment LA label to_mat to_vec reg slv pairs mpv mpc window draw train test' s = Ok (frame_take (List.length (findex train) + s) g).
Proof.
  intros N LA label to_mat to_vec reg slv pairs mpv mpc window draw train test test' steps s g.
  exact (prefix LA label to_mat to_vec reg slv pairs mpv mpc window draw train test test' steps s g).
Qed.
Print Assumptions C141_prefix.

(** C141 (replay): run the CM-IEWMA cell once, on any returns h that agree with the sampled ones on all rows the experiment
    fitted (for instance on the sampled returns themselves, or with real returns appended).  Then sample i was drawn from the
    latest covariance of that single run that is dated before sample i -- provided the training rows alone give more than
    w forecasts. *)
Theorem C141_replay : forall (N : Num) (LA : LinAlg) (label : option num * option num -> string)
  (to_mat : frame string -> l_mat LA) (to_vec : vec -> l_vec LA) (reg : l_mat LA -> l_mat LA)
  slv fast rest mpv mpc w draw (train : frame time) test steps g (h : frame time) covs weights,
  let pairs := fast :: rest in let m := List.length (findex train) in
  nisnan nnan = true -> (forall p q, List.In p pairs -> List.In q pairs -> label p = label q -> p = q) -> 1 <= w ->
  List.length (findex train) = List.length (fvals train) ->
  run_sampling_experiment LA label to_mat to_vec reg slv pairs mpv mpc (Some w) draw train test steps = Ok g ->
  (forall o, iterated_ewma (pair_params mpv mpc None false fast) train = Ok o -> w < List.length o) ->
  List.length (findex h) = List.length (fvals h) -> increasing (findex h) ->
  (forall i, i < steps -> frame_take (m + i) h = frame_take (m + i) g) ->
  cm_iewma LA label to_mat to_vec reg slv h pairs mpv mpc (Some w) = Ok (covs, weights) ->
  forall i, i < steps -> exists before t c after, covs = (before ++ (t, c) :: after)%list /\ draw i c = Ok (List.nth (m + i) (fvals g) []) /\
    List.In t (List.firstn (m + i) (findex h)) /\ List.Forall (fun tc => List.In (fst tc) (List.skipn (m + i) (findex h))) after.
Proof.
  intros N LA label to_mat to_vec reg slv fast rest mpv mpc w draw train test steps g h covs weights pairs m H1 H2 H3.
  exact (replay LA label to_mat to_vec reg slv fast rest mpv mpc w draw H1 H2 H3 train test steps g h covs weights).
Qed.
Print Assumptions C141_replay.

(** C141 (exact arithmetic): from data as in C124_dates, with a solver returning feasible weights and draws of real numbers, sample i
    is drawn from a symmetric positive definite covariance, the cell's forecast dated by the row just before sample i. *)
Theorem C141_positive_definite : forall (label : option xr * option xr -> string) (train : frame (N := XR) time) (x : nat -> nat -> R) fast rest mpv mpc lamda K,
  let n := List.length (fcols train) in let LA := RLA n K in let pairs := fast :: rest in let m := List.length (findex train) in
  let reg := scale_variances (Rplus 1 lamda) in
  List.length (firsts (List.map label pairs)) = K -> (forall p q, List.In p pairs -> List.In q pairs -> label p = label q -> p = q) ->
  forall (to_mat : frame (N := XR) string -> 'M[R]_n) (to_vec : list xr -> 'cV[R]_n),
  reads_matrix n to_mat -> valid_returns train -> returns_are false train x -> positive_halflives pairs ->
  Nat.max 1 mpv <= m -> moved false x n (first_pos mpv) -> active x n mpv mpc ->
  forall (slv : solver LA) (window : option nat) (draw : nat -> 'M[R]_n -> res (list xr)) (test : list Z) (steps : nat) (g : frame (N := XR) time),
  returns_feasible slv -> (forall i c v, draw i c = Ok v -> finite_row v) ->
  run_sampling_experiment (N := XR) LA label to_mat to_vec reg slv pairs mpv mpc window draw train test steps = Ok g ->
  increasing (findex g) -> forall i, i < steps ->
  exists c t before weights, draw i c = Ok (List.nth (m + i) (fvals g) []) /\ spd (c : 'M[R]_n) /\
    cm_iewma (N := XR) LA label to_mat to_vec reg slv (frame_take (m + i) g) pairs mpv mpc window = Ok (before ++ [(t, c)], weights)%list /\
    nth_error (findex g) (m + i - 1) = Some t.
Proof. exact sampled_from. Qed.
Print Assumptions C141_positive_definite.

(** Three days 1, 2, 4 of one asset; two sampled days with returns 8 and 5; a window of 2.  [sm_g] is the result. *)
Definition sm_draw : nat -> 'M[R]_1 -> res (list xr) := fun i _ => Ok [Fin (match i with O => 8 | _ => 5 end)].
Definition sm_g : frame (N := XR) time := mkFrame [1%z; 2%z; 3%z; 4%z; 5%z] (fcols fr_f) (fvals fr_f ++ [[Fin 5]])%list.
Notation sm_run := (run_sampling_experiment (N := XR) (RLA 1 2) fr_label (@fr_mat 1) (@fr_vec 1) (scale_variances (Rplus 1 cx_l)) fr_optimal fr_pairs 1 1 (Some 2) sm_draw (frame_take 3 fr_f)).
Example C141_case : sm_run [4%z; 5%z; 6%z] 2 = Ok sm_g.
Proof.
  destruct C123_case as (S3 & S4 & w3 & w4 & E4 & E3).
  assert (F3 : fit_cm_iewma (N := XR) (RLA 1 2) fr_label (@fr_mat 1) (@fr_vec 1) (scale_variances (Rplus 1 cx_l)) fr_optimal fr_pairs 1 1 (Some 2) (frame_take 3 fr_f) = Ok S3).
  { unfold fit_cm_iewma. rewrite E3. reflexivity. }
  assert (F4 : fit_cm_iewma (N := XR) (RLA 1 2) fr_label (@fr_mat 1) (@fr_vec 1) (scale_variances (Rplus 1 cx_l)) fr_optimal fr_pairs 1 1 (Some 2) fr_f = Ok S4).
  { unfold fit_cm_iewma. rewrite E4. reflexivity. }
  unfold run_sampling_experiment. cbn [sampling_loop]. rewrite F3. cbn [bind sm_draw or_raise nth_error].
  assert (A : append_row (N := XR) (frame_take 3 fr_f) 4%z [Fin 8] = Ok fr_f) by reflexivity. rewrite A. cbn [bind]. rewrite F4. reflexivity.
Qed.
(** The hypotheses of C141_replay with h the first four days, and of C141_positive_definite. *)
Example C141_case_replay : (forall o, iterated_ewma (pair_params 1 1 None false (fr_pair 1)) (frame_take 3 fr_f) = Ok o -> 2 < List.length o) /\
  (forall i, i < 2 -> frame_take (3 + i) fr_f = frame_take (3 + i) sm_g) /\ increasing (findex fr_f) /\
  exists r, cx_cell fr_f = Ok r.
Proof.
  destruct C123_case as (S3 & S4 & w3 & w4 & E4 & _). destruct fr_takes as (o & Eo & Lo).
  split; [intros o'; rewrite Eo; intros E; injection E as E; subst o'; lia|]. split; [intros [|[|i]] Hi; [reflexivity|reflexivity|lia]|]. split; [apply fr_valid|]. eexists. exact E4.
Qed.
Example C141_case_positive_definite : let train := frame_take 3 fr_f in
  List.length (firsts (List.map fr_label fr_pairs)) = 2 /\ (forall p q, List.In p fr_pairs -> List.In q fr_pairs -> fr_label p = fr_label q -> p = q) /\
  reads_matrix 1 (@fr_mat 1) /\ valid_returns train /\ returns_are false train fr_x /\ positive_halflives fr_pairs /\
  Nat.max 1 1 <= List.length (findex train) /\ moved false fr_x 1 (first_pos 1) /\ active fr_x 1 1 1 /\ returns_feasible (@fr_optimal) /\
  (forall i c v, sm_draw i c = Ok v -> finite_row v) /\ increasing (findex sm_g).
Proof.
  split; [exact fr_K|]. split; [exact fr_inj|]. split; [exact (@fr_reads 1)|]. split; [|split; [|split; [exact fr_positive|split; [cbn; lia|split; [exact fr_moved|split; [exact C121_case_active|split; [|split]]]]]]].
  - split; [split; [reflexivity|repeat constructor]|]. split; [cbn; lia|discriminate].
  - intros k j Hk Hj. simpl in Hk, Hj. left. destruct j; [|lia]. do 3 (destruct k as [|k]; [reflexivity|]). lia.
  - intros h p w Hw. exact (proj1 (@best_opt 1 2 h p w Hw)).
  - intros i c v E. injection E as E. subst v. constructor; [eexists; reflexivity|constructor].
  - cbn. lia.
Qed.
