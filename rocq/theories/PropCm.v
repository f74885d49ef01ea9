(** * C124, C125: the CM-IEWMA cell of the experiments, in exact arithmetic (C123: PropCmRun.v). *)
From Coq Require Import Reals Lra ZArith String List Lia.
Set Warnings "-notation-overridden,-ambiguous-paths".
From mathcomp Require Import all_ssreflect all_algebra.
From Verif Require Import RStruct MatR Spec Num Py Ewma EwmaPrefix SpecEwma Combination SpecComb FromEwmas SpecFrom RealLA SpecCombR CombEx SpecRank SpecRankR SpecMove SpecFromR SpecActive SpecExp FromUnits FromFinite FromExRun FromEx RankEx PropRankR CmIewma CmRun CmPos CmReal CmEx PropFromR PropCmRun.
Import ListNotations.
Local Open Scope coq_nat_scope.
Delimit Scope Z_scope with z.

(** * C124: when the cell builds, and what it returns (exact arithmetic). *)
(** The fast expert may be singular: if every asset has a non-zero return between the end of the volatility warm-up and the first
    forecast, only the other experts need positive definite covariances (cf. C118, where every expert does). *)
Theorem C124_builds : forall (label : option xr * option xr -> string) (returns : frame (N := XR) time) x fast rest mpv mpc lamda K,
  let n := List.length (fcols returns) in let LA := RLA n K in let pairs := fast :: rest in
  List.length (firsts (List.map label pairs)) = K -> (forall p q, List.In p pairs -> List.In q pairs -> label p = label q -> p = q) ->
  forall (to_mat : frame (N := XR) string -> 'M[R]_n) (to_vec : list xr -> 'cV[R]_n),
  reads_matrix n to_mat -> valid_returns returns -> returns_are false returns x -> positive_halflives pairs ->
  Nat.max 1 mpv <= List.length (findex returns) -> moved false x n (first_pos mpv) -> active x n mpv mpc -> Rlt 0 lamda ->
  (forall p outs o, List.In p rest -> iterated_ewma (pair_params (N := XR) mpv mpc None false p) returns = Ok outs -> List.In o outs -> definite_item n o) ->
  exists c, cm_build (N := XR) LA label to_mat to_vec (scale_variances (Rplus 1 lamda)) returns pairs mpv mpc = Ok c /\ K_of LA c = K.
Proof.
  intros label returns x fast rest mpv mpc lamda K n LA pairs HK Hlab to_mat to_vec H1 H2 H3 H4 H5 H6 H7 H8 H9.
  exact (cm_builds HK Hlab to_vec H1 H2 H3 H4 H5 H6 H8
    (fun outs o A B => conj (proj1 (finite_items returns x pairs mpv mpc None None H2 (Hx' H3) H4 (or_introl Logic.eq_refl) H7 fast outs o (or_introl Logic.eq_refl) A B))
       (positive_variances returns x pairs mpv mpc H2 (Hx' H3) H4 H7 fast outs o (or_introl Logic.eq_refl) A B)) H9).
Qed.
Print Assumptions C124_builds.

(** The dates: T = rows left after both warm-ups.  If the cell returns, T >= 2 and both dictionaries are keyed by the rows of the
    returns after the two warm-ups and the window; every covariance is symmetric positive definite and every weight vector
    non-negative with sum one, one weight per expert. *)
Theorem C124_dates : forall (label : option xr * option xr -> string) (returns : frame (N := XR) time) x fast rest mpv mpc lamda K,
  let n := List.length (fcols returns) in let LA := RLA n K in let pairs := fast :: rest in
  List.length (firsts (List.map label pairs)) = K -> (forall p q, List.In p pairs -> List.In q pairs -> label p = label q -> p = q) ->
  forall (to_mat : frame (N := XR) string -> 'M[R]_n) (to_vec : list xr -> 'cV[R]_n),
  reads_matrix n to_mat -> valid_returns returns -> returns_are false returns x -> positive_halflives pairs ->
  Nat.max 1 mpv <= List.length (findex returns) -> moved false x n (first_pos mpv) -> active x n mpv mpc ->
  forall slv window covs weights, returns_feasible slv ->
  cm_iewma (N := XR) LA label to_mat to_vec (scale_variances (Rplus 1 lamda)) slv returns pairs mpv mpc window = Ok (covs, weights) ->
  let fp := first_pos mpv + first_pos mpc in let T := List.length (findex returns) - fp in let w := eff T window in
  2 <= T /\ List.map fst covs = List.skipn (fp + w) (findex returns) /\ List.map fst weights = List.skipn (fp + w) (findex returns) /\
  (forall tS, List.In tS covs -> spd (snd tS : 'M[R]_n)) /\ (forall tw, List.In tw weights -> feasible K (snd tw)).
Proof.
  intros label returns x fast rest mpv mpc lamda K n LA pairs HK Hlab to_mat to_vec H1 H2 H3 H4 H5 H6 H7 slv window covs weights H8 H9.
  exact (cm_dates HK Hlab H1 H2 H3 H4 H5 H6
    (fun p outs o A B C => proj1 (finite_items returns x pairs mpv mpc None None H2 (Hx' H3) H4 (or_introl Logic.eq_refl) H7 p outs o A B C)) H8 H9).
Qed.
Print Assumptions C124_dates.

(** * C125: the units of the returns. *)
(** Multiply the returns of asset i by s i > 0: with optimal solvers the cell returns the same dates and weights and the covariance
    of assets i, j multiplied by s i * s j -- or raises AttributeError because the solver failed on some date. *)
Theorem C125_units : forall (label : option xr * option xr -> string) (returns : frame (N := XR) time) x fast rest mpv mpc lamda K,
  let n := List.length (fcols returns) in let LA := RLA n K in let pairs := fast :: rest in
  List.length (firsts (List.map label pairs)) = K -> (forall p q, List.In p pairs -> List.In q pairs -> label p = label q -> p = q) ->
  forall (to_mat : frame (N := XR) string -> 'M[R]_n) (to_vec : list xr -> 'cV[R]_n),
  reads_matrix n to_mat -> valid_returns returns -> returns_are false returns x -> positive_halflives pairs ->
  forall (s : nat -> R) (scaled : frame (N := XR) time), (forall j, Rlt 0 (s j)) -> rescaled s returns scaled -> reads_vector n to_vec ->
  active x n mpv mpc ->
  forall slv slv' window covs weights, returns_optimal slv -> returns_optimal slv' ->
  cm_iewma (N := XR) LA label to_mat to_vec (scale_variances (Rplus 1 lamda)) slv returns pairs mpv mpc window = Ok (covs, weights) ->
  match cm_iewma (N := XR) LA label to_mat to_vec (scale_variances (Rplus 1 lamda)) slv' scaled pairs mpv mpc window with
  | Ok (covs', weights') => covs' = List.map (fun tS => (fst tS, unit_cov (fun i : 'I_n => s i) (snd tS))) covs /\ weights' = weights
  | Raise e => e = AttributeError
  end.
Proof.
  intros label returns x fast rest mpv mpc lamda K n LA pairs HK Hlab to_mat to_vec H1 H2 H3 H4 s g H5 H6 H7 H8 slv slv' window covs weights H9 H10 H11.
  exact (cm_units HK Hlab H1 H2 H3 H4 H5 H6 H7
    (finite_items returns x pairs mpv mpc None None H2 (Hx' H3) H4 (or_introl Logic.eq_refl) H8) H9 H10 H11).
Qed.
Print Assumptions C125_units.

(** One asset with returns 1, 2, 4, 8, half-lives 1 and 1/2, lamda = 1/20 and a window of 2. *)
Notation cx_cell f := (cm_iewma (N := XR) (RLA 1 2) fr_label (@fr_mat 1) (@fr_vec 1) (scale_variances (Rplus 1 cx_l)) fr_optimal f fr_pairs 1 1 (Some 2)).
Example C124_case : exists S3 S4 w3 w4, cx_cell fr_f = Ok ([(3%z, S3); (4%z, S4)], [(3%z, w3); (4%z, w4)]) /\ spd (S3 : 'M[R]_1) /\ feasible 2 w4.
Proof.
  destruct cx_run as (c & S3 & S4 & w3 & w4 & _ & E). exists S3, S4, w3, w4. split; [exact E|].
  destruct (C124_dates fr_label fr_f fr_x (fr_pair 1) [fr_pair (/ 2)] 1 1 cx_l 2 fr_K fr_inj (@fr_mat 1) (@fr_vec 1) (@fr_reads 1) fr_valid (fr_returns false) fr_positive
    ltac:(cbn; lia) fr_moved C121_case_active fr_optimal (Some 2) _ _ (fun h p w Hw => proj1 (@best_opt 1 2 h p w Hw)) E) as (_ & _ & _ & H1 & H2).
  split; [exact (H1 (3%z, S3) (or_introl Logic.eq_refl))|exact (H2 (4%z, w4) (or_intror (or_introl Logic.eq_refl)))].
Qed.
Example C123_case : exists S3 S4 w3 w4, cx_cell fr_f = Ok ([(3%z, S3); (4%z, S4)], [(3%z, w3); (4%z, w4)]) /\
  cx_cell (frame_take 3 fr_f) = Ok ([(3%z, S3)], [(3%z, w3)]).
Proof.
  destruct cx_run as (c & S3 & S4 & w3 & w4 & _ & E). exists S3, S4, w3, w4. split; [exact E|].
  pose proof (C123_no_look_ahead XR (RLA 1 2) fr_label (@fr_mat 1) (@fr_vec 1) (scale_variances (Rplus 1 cx_l)) (fr_pair 1) [fr_pair (/ 2)] 1 1 fr_f 3 fr_optimal 2 _ _
    Logic.eq_refl fr_inj Logic.eq_refl (proj1 (proj2 fr_valid)) E) as H. cbv zeta in H. destruct (cm_build _ _ _ _ _ _ _ _ _) as [c0|e0].
  - destruct fr_takes as (outs & Eo & Lo). destruct (H (fr_pair 1) outs (or_introl Logic.eq_refl) Eo ltac:(rewrite Lo; lia)) as (cs & ws & mc & mw & E1 & E2 & E3 & L1 & L2 & _).
    rewrite Lo in L1, L2. destruct cs as [|a [|]]; try discriminate. destruct ws as [|b [|]]; try discriminate. injection E2 as <- _. injection E3 as <- _. exact E1.
  - destruct H as (_ & F & _). inversion F as [|? ? F1 _]; subst. cbn in F1. lia.
Qed.
Example C125_case : exists S3 S4 w3 w4, cx_cell fr_f = Ok ([(3%z, S3); (4%z, S4)], [(3%z, w3); (4%z, w4)]) /\
  match cx_cell fr_percent with Ok (covs', weights') => weights' = [(3%z, w3); (4%z, w4)] | Raise e => e = AttributeError end.
Proof.
  destruct cx_run as (c & S3 & S4 & w3 & w4 & _ & E). exists S3, S4, w3, w4. split; [exact E|].
  pose proof (C125_units fr_label fr_f fr_x (fr_pair 1) [fr_pair (/ 2)] 1 1 cx_l 2 fr_K fr_inj (@fr_mat 1) (@fr_vec 1) (@fr_reads 1) fr_valid (fr_returns false) fr_positive
    (fun _ => IZR 100) fr_percent ltac:(intros; lra) fr_rescaled (@fr_readsv 1) C121_case_active fr_optimal fr_optimal (Some 2) _ _ (@best_opt 1 2) (@best_opt 1 2) E) as H.
  unfold fr_pairs. destruct (cm_iewma _ _ _ _ _ _ fr_percent _ _ _ _) as [[cs ws]|e]; [exact (proj2 H)|exact H].
Qed.
(** Two assets and a covariance warm-up of one row: from_ewmas raises LinAlgError on the expert that the cell accepts as its fast one. *)
Definition rk_fast : option xr * option xr := (Some (Fin (IZR 2)), Some (Fin (IZR 3))).
Lemma rk_active : active rk_x 2 1 1.
Proof. intros j Hj. exists 0. split; [unfold first_pos; simpl; lia|]. destruct j as [|[|j]]; [| |lia]; unfold rk_x; simpl; lra. Qed.
Lemma rk_returns0 : returns_are false rk_f rk_x.
Proof. intros k j Hk Hj. simpl in Hk, Hj. left. do 2 (destruct k as [|k]; [do 2 (destruct j as [|j]; [reflexivity|]); lia|]). lia. Qed.
Example C124_case_singular label to_vec : 
  from_ewmas (N := XR) (RLA 2 1) label rk_mat to_vec rk_f [rk_fast] 1 1 None false = Raise LinAlgError /\
  exists c, cm_build (N := XR) (RLA 2 1) label rk_mat to_vec (scale_variances (Rplus 1 cx_l)) rk_f [rk_fast] 1 1 = Ok c.
Proof.
  destruct rk_hyps as (H1 & H2 & H3 & H4 & H5 & H6).
  assert (Hp : positive_halflives [rk_fast]) by (intros p [<-|[]]; exists (IZR 2), (IZR 3); repeat split; lra).
  split.
  - eapply (C118_too_few 1 label rk_f rk_mat to_vec); eauto; try exact rk_reads; try discriminate; try (simpl; lia).
    intros p outs o [<-|[]] E Ho. apply (rk_single_nan_free 2 3 ltac:(lra) ltac:(lra) outs o E Ho).
  - destruct (C124_builds label rk_f rk_x rk_fast [] 1 1 cx_l 1 Logic.eq_refl) with (to_mat := rk_mat) (to_vec := to_vec) as (c & E & _); auto.
    + intros p q [<-|[]] [<-|[]] _. reflexivity.
    + exact rk_reads.
    + exact rk_returns0.
    + exact rk_active.
    + unfold cx_l. lra.
    + intros p outs o [].
    + exists c. exact E.
Qed.
Example C124_case_failed : cm_iewma (N := XR) (RLA 1 2) fr_label (@fr_mat 1) (@fr_vec 1) (scale_variances (Rplus 1 cx_l)) (fun _ _ => None) fr_f fr_pairs 1 1 (Some 2) = Raise AttributeError.
Proof. exact cx_failed. Qed.
