(** * from_ewmas(...).solve(...) in exact arithmetic. *)
From Coq Require Import Reals Lra ZArith String List Lia.
Set Warnings "-notation-overridden,-ambiguous-paths".
From mathcomp Require Import all_ssreflect all_algebra.
From Verif Require Import RStruct MatR Spec Num Py Ewma EwmaPrefix SpecEwma Combination SpecComb FromEwmas SpecFrom RealLA SpecCombR CombEx SpecRank SpecRankR SpecMove SpecFromR FromRun FromUnits SpecActive FromFinite FromExRun FromEx PropFromRun.
Import ListNotations.
Local Open Scope coq_nat_scope.
Delimit Scope Z_scope with z.

(** * C121: the schedule of from_ewmas(...).solve(...), in exact arithmetic. *)
(** With n finite return series that move during the warm-up, min_periods mpv and mpc and a window: T = rows left after both
    warm-ups; a run that completes had T >= 2, yields T - w items, the j-th one for row mpv-1 + mpc-1 + w + j of the returns,
    with a symmetric positive definite covariance and non-negative weights that sum to one, one per label. *)
Theorem C121_schedule : forall (label : option xr * option xr -> string) (returns : frame (N := XR) time) x pairs mpv mpc clip_at rc mean K,
  let n := List.length (fcols returns) in let LA := RLA n K in
  List.length (firsts (List.map label pairs)) = K ->
  forall (to_mat : frame (N := XR) string -> 'M[R]_n) (to_vec : list xr -> 'cV[R]_n),
  reads_matrix n to_mat -> valid_returns returns -> returns_are false returns x -> positive_halflives pairs -> clip_is clip_at rc ->
  Nat.max 1 mpv <= List.length (findex returns) -> moved mean x n (first_pos mpv) ->
  (forall p outs o, List.In p pairs -> iterated_ewma (pair_params (N := XR) mpv mpc clip_at mean p) returns = Ok outs -> List.In o outs -> nan_free_item n o) ->
  forall (c : comb LA) slv window items, returns_feasible slv ->
  from_ewmas (N := XR) LA label to_mat to_vec returns pairs mpv mpc clip_at mean = Ok c -> solve LA slv c window None = (items, None) ->
  let fp := first_pos mpv + first_pos mpc in let T := List.length (findex returns) - fp in let w := eff T window in
  2 <= T /\ List.length items = T - w /\
  forall j r, List.nth_error items j = Some (Some r) ->
    r_time LA r = List.nth (fp + w + j) (findex returns) Z0 /\ spd (r_cov LA r : 'M[R]_n) /\ feasible K (r_weights LA r).
Proof. intros label returns x pairs mpv mpc clip_at rc mean K n LA HK to_mat to_vec. intros. eapply run_schedule; eauto. Qed.
Print Assumptions C121_schedule.
(** With mean = False the condition on the covariances holds if every asset has a non-zero return between the end of the
    volatility warm-up and the first forecast. *)
Theorem C121_data : forall (label : option xr * option xr -> string) (returns : frame (N := XR) time) x pairs mpv mpc clip_at rc K,
  let n := List.length (fcols returns) in let LA := RLA n K in
  List.length (firsts (List.map label pairs)) = K ->
  forall (to_mat : frame (N := XR) string -> 'M[R]_n) (to_vec : list xr -> 'cV[R]_n),
  reads_matrix n to_mat -> valid_returns returns -> returns_are false returns x -> positive_halflives pairs -> clip_is clip_at rc ->
  Nat.max 1 mpv <= List.length (findex returns) -> moved false x n (first_pos mpv) -> active x n mpv mpc ->
  forall (c : comb LA) slv window items, returns_feasible slv ->
  from_ewmas (N := XR) LA label to_mat to_vec returns pairs mpv mpc clip_at false = Ok c -> solve LA slv c window None = (items, None) ->
  let fp := first_pos mpv + first_pos mpc in let T := List.length (findex returns) - fp in let w := eff T window in
  2 <= T /\ List.length items = T - w /\
  forall j r, List.nth_error items j = Some (Some r) ->
    r_time LA r = List.nth (fp + w + j) (findex returns) Z0 /\ spd (r_cov LA r : 'M[R]_n) /\ feasible K (r_weights LA r).
Proof.
  intros label returns x pairs mpv mpc clip_at rc K n LA HK to_mat to_vec H1 H2 H3 H4 H5 H6 H7 H8 c slv window items H9 H10 H11.
  exact (C121_schedule label returns x pairs mpv mpc clip_at rc false K HK to_mat to_vec H1 H2 H3 H4 H5 H6 H7
    (fun p outs o A B C => proj1 (finite_items returns x pairs mpv mpc clip_at rc H2 (Hx' H3) H4 H5 H8 p outs o A B C)) c slv window items H9 H10 H11).
Qed.
Print Assumptions C121_data.

(** * C122: the units of the returns. *)
(** Multiply the returns of asset i by s i > 0 (per cent instead of fractions, another currency at a fixed rate): with optimal
    solvers the pipeline completes with the same times and weights, the mean of asset i multiplied by s i and the covariance of
    assets i, j by s i * s j. *)
Theorem C122_units : forall (label : option xr * option xr -> string) (returns : frame (N := XR) time) x pairs mpv mpc clip_at rc mean K,
  let n := List.length (fcols returns) in let LA := RLA n K in
  List.length (firsts (List.map label pairs)) = K ->
  forall (to_mat : frame (N := XR) string -> 'M[R]_n) (to_vec : list xr -> 'cV[R]_n),
  reads_matrix n to_mat -> valid_returns returns -> returns_are false returns x -> positive_halflives pairs -> clip_is clip_at rc ->
  forall (s : nat -> R) (scaled : frame (N := XR) time), (forall j, Rlt 0 (s j)) -> rescaled s returns scaled -> reads_vector n to_vec ->
  (forall p outs o, List.In p pairs -> iterated_ewma (pair_params (N := XR) mpv mpc clip_at mean p) returns = Ok outs -> List.In o outs -> finite_item n o) ->
  forall (c : comb LA) slv slv' window times items, returns_optimal slv -> returns_optimal slv' ->
  from_ewmas (N := XR) LA label to_mat to_vec returns pairs mpv mpc clip_at mean = Ok c -> solve LA slv c window times = (items, None) ->
  exists c' items', from_ewmas (N := XR) LA label to_mat to_vec scaled pairs mpv mpc clip_at mean = Ok c' /\
    solve LA slv' c' window times = (items', None) /\ List.length items = List.length items' /\
    forall j r r', List.nth_error items j = Some (Some r) -> List.nth_error items' j = Some (Some r') ->
      r_time LA r = r_time LA r' /\ r_weights LA r' = r_weights LA r /\
      (forall i : 'I_n, (r_mean LA r' : 'cV[R]_n) i ord0 = Rmult (s i) ((r_mean LA r : 'cV[R]_n) i ord0)) /\
      (forall i k : 'I_n, (r_cov LA r' : 'M[R]_n) i k = Rmult (Rmult (s i) (s k)) ((r_cov LA r : 'M[R]_n) i k)).
Proof.
  intros label returns x pairs mpv mpc clip_at rc mean K n LA HK to_mat to_vec. intros H1 H2 H3 H4 H5 s g H6 H7 H8 H9 c slv slv' window times items H10 H11 H12 H13.
  destruct (@run_units label returns x pairs mpv mpc clip_at rc mean K HK to_mat to_vec H1 H2 H3 H4 H5 s g H6 H7 H8 H9 c slv slv' window times items H10 H11 H12 H13)
    as (c' & items' & E1 & E2 & E3 & E4). exists c', items'. split; [exact E1|]. split; [exact E2|]. split; [exact E3|].
  intros j r r' A B. destruct (E4 j r r' A B) as (F1 & F2 & F3 & F4). split; [exact F1|]. split; [exact F2|].
  split; [intros i; rewrite F3 mxE; reflexivity|intros i k; rewrite F4 mxE; reflexivity].
Qed.
Print Assumptions C122_units.
Theorem C122_data : forall (label : option xr * option xr -> string) (returns : frame (N := XR) time) x pairs mpv mpc clip_at rc K,
  let n := List.length (fcols returns) in let LA := RLA n K in
  List.length (firsts (List.map label pairs)) = K ->
  forall (to_mat : frame (N := XR) string -> 'M[R]_n) (to_vec : list xr -> 'cV[R]_n),
  reads_matrix n to_mat -> valid_returns returns -> returns_are false returns x -> positive_halflives pairs -> clip_is clip_at rc ->
  forall (s : nat -> R) (scaled : frame (N := XR) time), (forall j, Rlt 0 (s j)) -> rescaled s returns scaled -> reads_vector n to_vec ->
  active x n mpv mpc ->
  forall (c : comb LA) slv slv' window times items, returns_optimal slv -> returns_optimal slv' ->
  from_ewmas (N := XR) LA label to_mat to_vec returns pairs mpv mpc clip_at false = Ok c -> solve LA slv c window times = (items, None) ->
  exists c' items', from_ewmas (N := XR) LA label to_mat to_vec scaled pairs mpv mpc clip_at false = Ok c' /\
    solve LA slv' c' window times = (items', None) /\ List.length items = List.length items' /\
    forall j r r', List.nth_error items j = Some (Some r) -> List.nth_error items' j = Some (Some r') ->
      r_time LA r = r_time LA r' /\ r_weights LA r' = r_weights LA r /\
      (forall i : 'I_n, (r_mean LA r' : 'cV[R]_n) i ord0 = Rmult (s i) ((r_mean LA r : 'cV[R]_n) i ord0)) /\
      (forall i k : 'I_n, (r_cov LA r' : 'M[R]_n) i k = Rmult (Rmult (s i) (s k)) ((r_cov LA r : 'M[R]_n) i k)).
Proof.
  intros label returns x pairs mpv mpc clip_at rc K n LA HK to_mat to_vec H1 H2 H3 H4 H5 s g H6 H7 H8 H9 c slv slv' window times items H10 H11 H12 H13.
  exact (C122_units label returns x pairs mpv mpc clip_at rc false K HK to_mat to_vec H1 H2 H3 H4 H5 s g H6 H7 H8
    (finite_items returns x pairs mpv mpc clip_at rc H2 (Hx' H3) H4 H5 H9) c slv slv' window times items H10 H11 H12 H13).
Qed.
Print Assumptions C122_data.

(** One asset with returns 1, 2, 4, 8, half-lives 1 and 1/2, a window of 2: two results, and one from the first three rows. *)
Definition fr_optimal : solver (RLA 1 2) := @best 1 2.
Example C121_case : exists c r3 r4,
  from_ewmas (N := XR) (RLA 1 2) fr_label (@fr_mat 1) (@fr_vec 1) fr_f fr_pairs 1 1 None false = Ok c /\
  solve (RLA 1 2) fr_optimal c (Some 2) None = ([Some r3; Some r4], None) /\
  r_time (RLA 1 2) r3 = 3%z /\ r_time (RLA 1 2) r4 = 4%z /\ spd (r_cov (RLA 1 2) r3 : 'M[R]_1) /\ feasible 2 (r_weights (RLA 1 2) r4).
Proof.
  destruct fr_run as (c & r3 & r4 & Hc & Hs). exists c, r3, r4. split; [exact Hc|]. split; [exact Hs|].
  destruct (C121_schedule fr_label fr_f fr_x fr_pairs 1 1 None None false 2 fr_K (@fr_mat 1) (@fr_vec 1) (@fr_reads 1) fr_valid (fr_returns false) fr_positive
    (or_introl Logic.eq_refl) ltac:(cbn; lia) fr_moved (fun p outs o H1 H2 H3 => proj1 (@fr_finite p outs o H1 H2 H3)) c fr_optimal _ _ (fun h p w Hw => proj1 (@best_opt 1 2 h p w Hw)) Hc Hs) as (_ & _ & H).
  destruct (H 0 r3 Logic.eq_refl) as (T3 & S3 & _). destruct (H 1 r4 Logic.eq_refl) as (T4 & _ & F4).
  split; [exact T3|]. split; [exact T4|]. split; [exact S3|exact F4].
Qed.
Example C120_case : exists c c3 r3 r4,
  from_ewmas (N := XR) (RLA 1 2) fr_label (@fr_mat 1) (@fr_vec 1) fr_f fr_pairs 1 1 None false = Ok c /\
  from_ewmas (N := XR) (RLA 1 2) fr_label (@fr_mat 1) (@fr_vec 1) (frame_take 3 fr_f) fr_pairs 1 1 None false = Ok c3 /\
  solve (RLA 1 2) fr_optimal c (Some 2) None = ([Some r3; Some r4], None) /\ solve (RLA 1 2) fr_optimal c3 (Some 2) None = ([Some r3], None).
Proof.
  destruct fr_run as (c & r3 & r4 & Hc & Hs). destruct (@fr_prefix c Hc) as (c3 & H3). exists c, c3, r3, r4. split; [exact Hc|]. split; [exact H3|]. split; [exact Hs|].
  pose proof (C120_no_look_ahead XR (RLA 1 2) fr_label (@fr_mat 1) (@fr_vec 1) fr_f 3 fr_pairs 1 1 None false c Logic.eq_refl Logic.eq_refl (proj1 (proj2 fr_valid)) fr_inj Hc) as H.
  cbv zeta in H. rewrite H3 in H. destruct fr_takes as (outs & Eo & Lo).
  destruct (H (fr_pair 1) outs 2 fr_optimal _ (or_introl Logic.eq_refl) Eo ltac:(rewrite Lo; lia) Hs) as (items & more & E1 & E2 & E3 & _).
  rewrite Lo in E3. destruct items as [|a [|]]; try discriminate. injection E2 as <- _. exact E1.
Qed.
Definition fr_percent : frame (N := XR) time := mkFrame [1;2;3;4]%z ["A"]%string [[Fin 100]; [Fin 200]; [Fin 400]; [Fin 800]].
Lemma fr_rescaled : rescaled (fun _ => IZR 100) fr_f fr_percent.
Proof.
  split; [reflexivity|]. split; [reflexivity|]. split; [split; [reflexivity|repeat constructor]|].
  intros k j Hk Hj. cbn in Hk, Hj. destruct j; [|lia]. unfold times. do 4 (destruct k as [|k]; [cbn; f_equal; lra|]). lia.
Qed.
Example C122_case : exists c c' r r4 items',
  from_ewmas (N := XR) (RLA 1 2) fr_label (@fr_mat 1) (@fr_vec 1) fr_f fr_pairs 1 1 None false = Ok c /\
  from_ewmas (N := XR) (RLA 1 2) fr_label (@fr_mat 1) (@fr_vec 1) fr_percent fr_pairs 1 1 None false = Ok c' /\
  solve (RLA 1 2) fr_optimal c (Some 2) None = ([Some r; Some r4], None) /\ solve (RLA 1 2) fr_optimal c' (Some 2) None = (items', None) /\
  List.length items' = 2 /\ forall r', List.nth_error items' 0 = Some (Some r') ->
  (r_cov (RLA 1 2) r' : 'M[R]_1) ord0 ord0 = Rmult (Rmult (IZR 100) (IZR 100)) ((r_cov (RLA 1 2) r : 'M[R]_1) ord0 ord0).
Proof.
  destruct fr_run as (c & r3 & r4 & Hc & Hs).
  destruct (C122_units fr_label fr_f fr_x fr_pairs 1 1 None None false 2 fr_K (@fr_mat 1) (@fr_vec 1) (@fr_reads 1) fr_valid (fr_returns false) fr_positive
    (or_introl Logic.eq_refl) (fun _ => IZR 100) fr_percent ltac:(intros; lra) fr_rescaled (@fr_readsv 1) (@fr_finite)
    c fr_optimal fr_optimal _ _ _ (@best_opt 1 2) (@best_opt 1 2) Hc Hs) as (c' & items' & E1 & E2 & E3 & E4).
  exists c, c', r3, r4, items'. split; [exact Hc|]. split; [exact E1|]. split; [exact Hs|]. split; [exact E2|]. split; [symmetry; exact E3|].
  intros r' H'. destruct (E4 0 r3 r' Logic.eq_refl H') as (_ & _ & _ & H). exact (H ord0 ord0).
Qed.
Example C121_case_active : active fr_x 1 1 1.
Proof. intros j Hj. exists 0. split; [unfold first_pos; simpl; lia|]. unfold fr_x; simpl; lra. Qed.
