(** * The sampling experiment in exact arithmetic: every sample is drawn from a positive definite covariance dated the day before. *)
From Coq Require Import Reals Lra ZArith String List Lia.
Set Warnings "-notation-overridden,-ambiguous-paths".
From mathcomp Require Import all_ssreflect all_algebra.
From Verif Require Import RStruct MatR Spec Num Py ListFacts Ewma EwmaPrefix SpecEwma Combination SpecComb CombFacts FromEwmas SpecFrom RealLA SpecCombR CombEx SpecRank SpecRankR SpecFromR SpecActive SpecExp FromRun CmIewma CmRun PropCm Sampling SamplingProps SamplingFin.
Import ListNotations.
Local Open Scope coq_nat_scope.
Delimit Scope Z_scope with z.

Section Real.
  Context (label : option xr * option xr -> string) (cols : list string) (fast : option xr * option xr) (rest : list (option xr * option xr)) (mpv mpc : nat) (lamda : R) (K : nat).
  Notation n := (List.length cols).
  Notation LA := (RLA n K).
  Notation pairs := (fast :: rest).
  Hypothesis HK : List.length (firsts (List.map label pairs)) = K.
  Hypothesis Hlab : forall p q, List.In p pairs -> List.In q pairs -> label p = label q -> p = q.
  Context (to_mat : frame (N := XR) string -> 'M[R]_n) (to_vec : list xr -> 'cV[R]_n).
  Hypothesis Hr : reads_matrix n to_mat.
  Hypothesis Hp : positive_halflives pairs.
  Context (slv : solver LA) (window : option nat) (draw : nat -> 'M[R]_n -> res (list xr)).
  Hypothesis Hs : returns_feasible slv.
  Hypothesis Hd : forall i c v, draw i c = Ok v -> finite_row v.
  Notation reg := (scale_variances (Rplus 1 lamda)).
  Notation cell h := (cm_iewma (N := XR) LA label to_mat to_vec reg slv h pairs mpv mpc window).
  Notation fit h := (fit_cm_iewma (N := XR) LA label to_mat to_vec reg slv pairs mpv mpc window h).

  Lemma last_dated idx vals (y : nat -> nat -> R) c :
    valid_returns (mkFrame idx cols vals) -> returns_are false (mkFrame idx cols vals) y ->
    Nat.max 1 mpv <= List.length idx -> moved false y n (first_pos mpv) -> active y n mpv mpc ->
    fit (mkFrame idx cols vals) = Ok c ->
    2 <= List.length idx - (first_pos mpv + first_pos mpc) /\ spd (c : 'M[R]_n) /\
    exists pre t weights, cell (mkFrame idx cols vals) = Ok (pre ++ [(t, c)], weights)%list /\ nth_error idx (List.length idx - 1) = Some t.
  Proof.
    intros V X T M A E. set (h := mkFrame idx cols vals) in *. unfold fit_cm_iewma in E. destruct (cell h) as [[cv wt]|] eqn:Ec; [|discriminate E].
    cbn [bind fst] in E. destruct (last_opt cv) as [[t c']|] eqn:El; [|discriminate E]. cbn [or_raise bind snd] in E. injection E as E. subst c'. destruct (last_opt_inv _ _ El) as (pre & Epre). subst cv.
    destruct (C124_dates label h y fast rest mpv mpc lamda K HK Hlab to_mat to_vec Hr V X Hp T M A slv window _ _ Hs Ec) as (D1 & D2 & _ & D4 & _).
    split; [exact D1|]. split; [apply (D4 (t, c)); apply in_or_app; right; left; reflexivity|].
    exists pre, t, wt. split; [reflexivity|]. rewrite List.map_app in D2. exact (last_of_skip _ _ _ _ D2).
  Qed.
End Real.

Theorem sampled_from (label : option xr * option xr -> string) (train : frame (N := XR) time) (x : nat -> nat -> R) (fast : option xr * option xr) (rest : list (option xr * option xr)) (mpv mpc : nat) (lamda : R) (K : nat) :
  let n := List.length (fcols train) in let LA := RLA n K in let pairs := fast :: rest in let m := List.length (findex train) in
  let reg := scale_variances (Rplus 1 lamda) in
  List.length (firsts (List.map label pairs)) = K -> (forall p q, List.In p pairs -> List.In q pairs -> label p = label q -> p = q) ->
  forall (to_mat : frame (N := XR) string -> 'M[R]_n) (to_vec : list xr -> 'cV[R]_n),
  reads_matrix n to_mat -> valid_returns train -> returns_are false train x -> positive_halflives pairs ->
  Nat.max 1 mpv <= m -> moved false x n (first_pos mpv) -> active x n mpv mpc ->
  forall (slv : solver LA) (window : option nat) (draw : nat -> 'M[R]_n -> res (list xr)) (test : list Z) (steps : nat) (g : frame (N := XR) time),
  returns_feasible slv -> (forall i c v, draw i c = Ok v -> finite_row v) ->
  run_sampling_experiment (N := XR) LA label to_mat to_vec reg slv pairs mpv mpc window draw train test steps = Ok g ->
  increasing (findex g) -> forall i, i < steps ->
  exists c t pre weights, draw i c = Ok (List.nth (m + i) (fvals g) []) /\ spd (c : 'M[R]_n) /\
    cm_iewma (N := XR) LA label to_mat to_vec reg slv (frame_take (m + i) g) pairs mpv mpc window = Ok (pre ++ [(t, c)], weights)%list /\
    nth_error (findex g) (m + i - 1) = Some t.
Proof.
  destruct train as [idx cols vals]. cbn [fcols findex]. intros HK Hlab to_mat to_vec Hr Hv Hx Hp HT Hm Ha slv window draw test steps g Hs Hd Hg Hi i Hlt.
  set (train := mkFrame idx cols vals) in *. assert (HL : List.length (findex train) = List.length (fvals train)) by exact (hl train Hv).
  destruct (structure (N := XR) (RLA (List.length cols) K) label to_mat to_vec (scale_variances (Rplus 1 lamda)) slv (fast :: rest) mpv mpc window draw train test steps g HL Hg) as (rows & L1 & L2 & Eg & Hj). subst g.
  assert (HD : List.length rows = List.length (List.firstn steps test)) by (exact (Logic.eq_trans L1 (Logic.eq_sym L2))).
  assert (HR : forall j, j < List.length rows -> finite_row (List.nth j rows []) /\ List.length (List.nth j rows []) = List.length cols).
  { intros j Hj'. destruct (Hj j ltac:(rewrite -L1; exact Hj')) as (cj & _ & E1 & E2). split; [exact (Hd _ _ _ E1)|exact E2]. }
  destruct (Hj 0 ltac:(lia)) as (c0 & F0 & _). destruct (Hj i Hlt) as (c & F & Ed & _). rewrite Nat.add_0_r in F0. rewrite (ext_start train x _ rows Hv Hx HR Hi) in F0.
  destruct (last_dated label cols fast rest mpv mpc lamda K HK Hlab to_mat to_vec Hr Hp slv window Hs idx vals x c0 Hv Hx HT Hm Ha F0) as (T2 & _).
  set (k := List.length idx + i) in *. assert (Hk : k <= List.length (findex train) + List.length (List.firstn steps test)) by (rewrite L2; unfold k; change (findex train) with idx; lia).
  set (g := mkFrame (findex train ++ List.firstn steps test)%list (fcols train) (fvals train ++ rows)%list) in *.
  destruct (last_dated label cols fast rest mpv mpc lamda K HK Hlab to_mat to_vec Hr Hp slv window Hs (findex (frame_take k g)) (fvals (frame_take k g)) (ext_val train (List.firstn steps test) rows) c) as (_ & S & pre & t & wt & C & Tn).
  - exact (ext_valid train _ rows Hv HD HR Hi k).
  - exact (ext_returns train x _ rows Hv Hx HD HR k Hk).
  - rewrite (ext_rows train _ rows HD k Hk). unfold k. lia.
  - apply (ext_moved train x _ rows mpv Hv Hx HD); [|exact Hm]. change (findex train) with idx. lia.
  - apply (ext_active train x _ rows mpv mpc Hv Hx HD); [|exact Ha]. change (findex train) with idx. lia.
  - exact F.
  - exists c, t, pre, wt. split; [|split; [exact S|split; [exact C|]]].
    + rewrite Ed. f_equal. symmetry. exact (ext_row train _ rows Hv HD i).
    + apply (ext_last train (List.firstn steps test) rows HD k t); [|exact Tn]. split; [|exact Hk]. unfold k. lia.
Qed.
