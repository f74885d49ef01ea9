(** * Properties of the smoothing functions of experiments/extensions/smoothing.ipynb (C106, C107).

    Model: Smooth.v.  Vocabulary: SpecSmooth.v; [psd], [spd] in MatR.v. *)
From Coq Require Import Reals Lra ZArith String List Lia.
Set Warnings "-notation-overridden,-ambiguous-paths".
From mathcomp Require Import all_ssreflect all_algebra.
From Verif Require Import RStruct MatR Num Py Combination Smooth SpecSmooth SmoothProps.
Set Implicit Arguments.
Unset Strict Implicit.
Unset Printing Implicit Defensive.
Import GRing.Theory.
Local Open Scope ring_scope.
Delimit Scope R_scope with re.
Delimit Scope Z_scope with z.

(** C106 *)
Theorem C106_shape : forall n (check : check_t n) (solve : theta_solver) cols d lam out ups,
  L1_smoothing check solve cols d lam = Ok (out, ups) ->
  (0 < size d)%N /\ [seq p.1 | p <- out] = [seq p.1 | p <- d] /\ size ups = (size d).-1 /\
  (forall p, List.In p out -> c_index p.2 = cols /\ c_columns p.2 = cols) /\ mat_at out 0 = mat_at d 0.
Proof. exact L1_shape. Qed.
Print Assumptions C106_shape.

(** Every later day: keep yesterday's matrix if it is within lam of today's, else the matrix at distance lam from
    today's on the way to yesterday's. *)
Theorem C106_day : forall n (check : check_t n) (solve : theta_solver) cols d lam out ups, minimises_theta solve -> (0 <= lam)%re ->
  L1_smoothing check solve cols d lam = Ok (out, ups) -> forall i, (i.+1 < size d)%N ->
  let X := mat_at d i.+1 in let Y := mat_at out i in
  ((dist Y X <= lam)%re /\ nth 0%N ups i = 0%N /\ mat_at out i.+1 = Y) \/
  ((lam < dist Y X)%re /\ nth 0%N ups i = 1%N /\ mat_at out i.+1 = X + (lam / dist Y X)%re *: (Y - X)).
Proof. exact L1_day. Qed.
Print Assumptions C106_day.

(** It is the only minimiser of the day's cost over all matrices, not only on the line the code searches. *)
Theorem C106_optimal : forall n (check : check_t n) (solve : theta_solver) cols d lam out ups, minimises_theta solve -> (0 <= lam)%re ->
  L1_smoothing check solve cols d lam = Ok (out, ups) -> forall i, (i.+1 < size d)%N ->
  forall M, M <> mat_at out i.+1 ->
  (day_cost (mat_at d i.+1) (mat_at out i) lam (mat_at out i.+1) < day_cost (mat_at d i.+1) (mat_at out i) lam M)%re.
Proof. exact L1_optimal. Qed.
Print Assumptions C106_optimal.

Theorem C106_tracks : forall n (check : check_t n) (solve : theta_solver) cols d lam out ups, minimises_theta solve -> (0 <= lam)%re ->
  L1_smoothing check solve cols d lam = Ok (out, ups) -> forall i, (i < size d)%N -> (dist (mat_at out i) (mat_at d i) <= lam)%re.
Proof. exact L1_track. Qed.
Print Assumptions C106_tracks.

(** The smoothed matrix never moves further in a day than the unsmoothed one. *)
Theorem C106_calmer : forall n (check : check_t n) (solve : theta_solver) cols d lam out ups, minimises_theta solve -> (0 <= lam)%re ->
  L1_smoothing check solve cols d lam = Ok (out, ups) -> forall i, (i.+1 < size d)%N ->
  (dist (mat_at out i.+1) (mat_at out i) <= dist (mat_at d i.+1) (mat_at d i))%re.
Proof. exact L1_calm. Qed.
Print Assumptions C106_calmer.

Theorem C106_covariance : forall n (check : check_t n) (solve : theta_solver) cols d lam out ups, minimises_theta solve -> (0 <= lam)%re ->
  L1_smoothing check solve cols d lam = Ok (out, ups) ->
  ((forall i, (i < size d)%N -> psd (mat_at d i)) -> forall i, (i < size d)%N -> psd (mat_at out i)) /\
  ((forall i, (i < size d)%N -> spd (mat_at d i)) -> forall i, (i < size d)%N -> spd (mat_at out i)).
Proof. exact L1_psd. Qed.
Print Assumptions C106_covariance.

(** No look-ahead: the first k + 1 days alone give the first k + 1 results. *)
Theorem C106_prefix : forall n (check : check_t n) (solve : theta_solver) cols d lam out ups k, L1_smoothing check solve cols d lam = Ok (out, ups) ->
  L1_smoothing check solve cols (take k.+1 d) lam = Ok (take k.+1 out, take k ups).
Proof. exact L1_prefix. Qed.
Print Assumptions C106_prefix.

Theorem C106_total : forall n (check : check_t n) (solve : theta_solver) cols d lam, minimises_theta solve -> accepts_psd check -> always_solves solve ->
  (0 <= lam)%re -> (0 < size d)%N -> (forall i, (i < size d)%N -> psd (mat_at d i)) ->
  exists out ups, L1_smoothing check solve cols d lam = Ok (out, ups).
Proof. exact L1_total. Qed.
Print Assumptions C106_total.

(** The result does not depend on the optimiser. *)
Theorem C106_unique : forall n (check check' : check_t n) (solve solve' : theta_solver) cols d lam out ups out' ups',
  minimises_theta solve -> minimises_theta solve' -> (0 <= lam)%re ->
  L1_smoothing check solve cols d lam = Ok (out, ups) -> L1_smoothing check' solve' cols d lam = Ok (out', ups') -> out = out' /\ ups = ups'.
Proof. exact L1_same. Qed.
Print Assumptions C106_unique.

(** The parameter carries the units of the matrices. *)
Theorem C106_units : forall n c (check check' : check_t n) (solve solve' : theta_solver) cols cols' d lam out ups out' ups',
  minimises_theta solve -> minimises_theta solve' -> (0 <= lam)%re -> (0 < c)%re ->
  L1_smoothing check solve cols d lam = Ok (out, ups) -> L1_smoothing check' solve' cols' (rescale c d) (c * lam)%re = Ok (out', ups') ->
  ups' = ups /\ forall i, (i < size d)%N -> mat_at out' i = c *: mat_at out i.
Proof. exact L1_units. Qed.
Print Assumptions C106_units.

(** lam = 0: no smoothing.  lam at least the distance of every day to the first: nothing ever changes. *)
Theorem C106_extremes : forall n (check : check_t n) (solve : theta_solver) cols d, minimises_theta solve ->
  (forall out ups, L1_smoothing check solve cols d 0%re = Ok (out, ups) -> forall i, (i < size d)%N -> mat_at out i = mat_at d i) /\
  forall lam out ups, (0 <= lam)%re -> L1_smoothing check solve cols d lam = Ok (out, ups) ->
    (forall i, (i < size d)%N -> (dist (mat_at d 0) (mat_at d i) <= lam)%re) ->
    (forall i, (i < size d)%N -> mat_at out i = mat_at d 0) /\ ups = nseq (size d).-1 0%N.
Proof. move=> n check solve cols d Hs. split=> [out ups|lam out ups]; [exact: L1_zero|exact: L1_const]. Qed.
Print Assumptions C106_extremes.

(** Every way to fail: no matrix at all, or the first day on which an update is due and a matrix is rejected, the
    parameter is negative, or the optimiser fails; the days before it went well. *)
Theorem C106_errors : forall n (check : check_t n) (solve : theta_solver) cols d lam e, L1_smoothing check solve cols d lam = Raise e ->
  (d = [::] /\ e = IndexError) \/
  exists k out ups, (k.+1 < size d)%N /\ L1_smoothing check solve cols (take k.+1 d) lam = Ok (out, ups) /\
    let X := mat_at d k.+1 in let Y := mat_at out k in
    (lam < dist Y X)%re /\
    ((e = ValueError /\ (check X = false \/ check Y = false)) \/ (check X /\ check Y /\ e = DCPError /\ (lam < 0)%re) \/
     (check X /\ check Y /\ e = SolverError /\ solve (fun theta => day_cost X Y lam (theta *: X + (1 - theta) *: Y)) = None)).
Proof. exact L1_raise. Qed.
Print Assumptions C106_errors.

(** C107 *)
Theorem C107_values : forall n (d : list (Z * cframe n)), (0 < size d)%N ->
  exists l, frob_difference d = Ok l /\ [seq p.1 | p <- l] = behead [seq p.1 | p <- d] /\
  forall i, (i.+1 < size d)%N ->
    (mat_at d i = 0 -> nth None [seq p.2 | p <- l] i = None) /\
    (mat_at d i <> 0 -> nth None [seq p.2 | p <- l] i = Some (dist (mat_at d i.+1) (mat_at d i) / dist (mat_at d i) 0)%re).
Proof. exact diff_values. Qed.
Print Assumptions C107_values.
Theorem C107_units : forall n c (d : list (Z * cframe n)), c <> 0%re -> frob_difference (rescale c d) = frob_difference d.
Proof. exact frob_diff_scale. Qed.
Print Assumptions C107_units.
Theorem C107_smoothed : forall n (check : check_t n) (solve : theta_solver) cols d lam out ups, minimises_theta solve -> (0 <= lam)%re ->
  L1_smoothing check solve cols d lam = Ok (out, ups) ->
  exists l, frob_difference out = Ok l /\ size l = size ups /\
  forall i, (i < size ups)%N -> mat_at out i <> 0 ->
    exists v, nth None [seq p.2 | p <- l] i = Some v /\ (v = 0%re <-> nth 0%N ups i = 0%N).
Proof. exact diff_smoothed. Qed.
Print Assumptions C107_smoothed.

(** The hypotheses are met: an exact optimiser; three multiples of the 2 x 2 identity, 1, 3, 3, smoothed with lam = 1: one
    update, then rest. *)
Definition three_days : list (Z * cframe 2) :=
  [:: (1%z, mkC [::] [::] 1%:M); (2%z, mkC [::] [::] (IZR 3)%:M); (3%z, mkC [::] [::] (IZR 3)%:M)].
Lemma scalar_psd n (a : R) : (0 <= a)%re -> psd (a%:M : 'M[R]_n).
Proof.
  move=> H. split; first by rewrite /sym tr_scalar_mx. move=> x. rewrite -scalemx1 qfZ.
  have -> : qf 1%:M x = nsq x by rewrite /qf mulmx1. have := nsq_ge0 x. move: (nsq x) => y. toR. nra.
Qed.
Example C106_solver_met : forall n, minimises_theta exact_theta /\ always_solves exact_theta /\ accepts_psd (fun _ : 'M[R]_n => true).
Proof. move=> n; split; [exact: exact_theta_ok|split; [exact: exact_theta_total|by []]]. Qed.
Example C106_met : exists out ups, L1_smoothing (fun _ => true) exact_theta [:: "A"%string; "B"%string] three_days 1%re = Ok (out, ups) /\
  ups = [:: 1%N; 0%N] /\ mat_at out 2 <> mat_at three_days 2.
Proof.
  have [S1 [S2 S3]] := C106_solver_met 2.
  have H1 : (0 <= 1)%re by lra.
  have [|out [ups H]] := C106_total [:: "A"%string; "B"%string] S1 S3 S2 H1 (isT : (0 < size three_days)%N).
  { case=> [|[|[|i]]] //= _; rewrite /mat_at /=; apply: scalar_psd; toR; lra. }
  exists out, ups. split=> //.
  have [_ [_ [U [_ E0]]]] := C106_shape H.
  have D0 : dist (mat_at out 0) (mat_at three_days 1) = (2 * sqrt 2)%re.
  { rewrite E0 /dist /mat_at /= !big_ord_recl !big_ord0 !mxE /= !mulr1n !mulr0n.
    rewrite (_ : 2 * sqrt 2 = sqrt 8)%re; last first.
    { have -> : (8 = 2 ^ 2 * 2)%re by ring. rewrite sqrt_mult; [|lra|lra]. rewrite sqrt_pow2 //. lra. }
    congr sqrt. toR. ring. }
  have Hs : (1 < sqrt 2)%re by rewrite -sqrt_1; apply: sqrt_lt_1; lra.
  have [[Hd _]|[Hd [U0 M1]]] := C106_day S1 H1 H (isT : (1 < size three_days)%N); first by move: Hd; rewrite D0; lra.
  have T1 := C106_tracks S1 H1 H (isT : (1 < size three_days)%N).
  have [[_ [U1 M2]]|[Hd2 _]] := C106_day S1 H1 H (isT : (2 < size three_days)%N); last first.
  { exfalso. apply: (Rlt_irrefl 1). apply: (Rlt_le_trans _ _ _ Hd2). exact: T1. }
  split.
  - move: U U0 U1. case: (ups) => [|a [|b [|c u]]] //= _ -> ->. by [].
  - rewrite M2 M1 => E. have : dist (mat_at three_days 1 + (1 / dist (mat_at out 0) (mat_at three_days 1))%re *: (mat_at out 0 - mat_at three_days 1)) (mat_at three_days 2) = 0%re.
    { by rewrite E distE frob_sub0. }
    have -> : mat_at three_days 2 = mat_at three_days 1 by [].
    have Hp : (0 < frob (mat_at out 0 - mat_at three_days 1))%re by move: Hd; rewrite distE; lra.
    rewrite !distE addrAC addrN add0r frobZ Rabs_right; last first.
    { apply: Rle_ge. apply: Rlt_le. apply: Rdiv_lt_0_compat => //. lra. }
    move: (frob _) Hp => f Hp. rewrite /Rdiv Rmult_1_l Rinv_l; lra.
Qed.
Example C107_met : (0 < size three_days)%N /\ mat_at three_days 0 <> 0.
Proof.
  split=> // E. have := congr1 (fun M : 'M[R]_2 => M 0 0) E. rewrite /mat_at /= !mxE /= mulr1n => H. exact: (R1_neq_R0 H).
Qed.
