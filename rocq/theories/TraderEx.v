(** * Concrete cases for the properties of trading_model.py: two assets, two days. *)
From Coq Require Import Reals ZArith String List Lia Lra Psatz Classical.
Set Warnings "-notation-overridden,-ambiguous-paths".
From mathcomp Require Import all_ssreflect all_algebra.
From mathcomp.zify Require Import zify_ssreflect.
From Verif Require Import RStruct MatR Spectral Num Py Combination Trader SpecTrader TraderLists TraderOpt TraderBt TraderPort TraderParity TraderBt2 TraderHist TraderMain TraderFinal PropTrader.
Set Implicit Arguments.
Unset Strict Implicit.
Unset Printing Implicit Defensive.
Import GRing.Theory.
Local Open Scope ring_scope.
Delimit Scope R_scope with re.
Delimit Scope Z_scope with z.

Definition i0 : 'I_2 := ord0.
Definition i1 : 'I_2 := lift ord0 ord0.
(** Vectors and diagonal matrices of order 2. *)
Definition v2 (a b : R) : 'cV[R]_2 := \col_i (if (nat_of_ord i == 0)%N then a else b).
Definition D2 (a b : R) : 'M[R]_2 := \matrix_(i, j) (if i == j then (if (nat_of_ord i == 0)%N then a else b) else 0).
Lemma sum2 (F : 'I_2 -> R) : (\sum_i F i)%R = (F i0 + F i1)%re.
Proof. by rewrite big_ord_recl big_ord1. Qed.
Lemma v2_eta (w : 'cV[R]_2) : w = v2 (w i0 ord0) (w i1 ord0).
Proof. apply/colP => i. rewrite mxE. by case: i => [[|[|m]] Hi] //=; congr (w _ _); apply: val_inj. Qed.
Lemma qf_D2 a b (w : 'cV[R]_2) : qf (D2 a b) w = (a * (w i0 ord0 * w i0 ord0) + b * (w i1 ord0 * w i1 ord0))%re.
Proof. rewrite /qf mxE sum2 !mxE !sum2 !mxE /=. change (w i0 0%R) with (w i0 ord0). change (w i1 0%R) with (w i1 ord0). move: (w i0 ord0) (w i1 ord0) => x y. toR. eqR. ring. Qed.

Lemma pos2 (a b x y : R) : Rlt 0 a -> Rlt 0 b -> x <> R0 \/ y <> R0 -> (0 < a * (x * x) + b * (y * y))%re.
Proof. move=> Ha Hb [H|H]; have := Rlt_0_sqr _ H; rewrite /Rsqr; nra. Qed.
Lemma spd_D2 a b : Rlt 0 a -> Rlt 0 b -> spd (D2 a b).
Proof.
  move=> Ha Hb. split; first by apply/matrixP => i j; rewrite !mxE eq_sym; case: eqP => [->|].
  move=> x Hx. rewrite qf_D2. apply: pos2 => //. case: (Req_dec (x i0 ord0) 0) => E0; [right|by left]. case: (Req_dec (x i1 ord0) 0) => E1 //.
  case/eqP: Hx. rewrite (v2_eta x) E0 E1. apply/colP => i. rewrite !mxE. by case: ifP.
Qed.

(** Days 1 and 2, forecasts diag(1, 1) and diag(1, 4). *)
Definition sig2 : seq (Z * 'M[R]_2) := [:: (1%z, D2 1 1); (2%z, D2 1 4)].
Definition ret2 : seq 'cV[R]_2 := [:: v2 (1 / 5) 0; v2 (- (1 / 5)) 0].
Example C75_nonvacuous : exists T, new_trader ([:: 1%z; 2%z], [:: "a"%string; "b"%string], ret2) sig2 (Some ([:: 1%z; 2%z], [:: "a"%string; "b"%string], [:: 0; 0])) false = Ok T /\ trader_ok T /\
  t_times T = [:: 1%z; 2%z] /\ t_returns T = ret2 /\ t_Sigmas T = [:: D2 1 1; D2 1 4] /\ t_rhats T = Some [:: 0; 0] /\ t_diluted T = false /\ t_ws T = None /\ t_ws_diluted T = None.
Proof.
  apply: (@C75_constructor 2) => //.
  - move=> S. rewrite !inE => /orP [/eqP ->|/eqP ->]; apply: spd_D2; lra.
  - by move=> f [] <-.
Qed.
Example C75_bad_nonvacuous : new_trader ([:: 1%z], [:: "a"%string; "b"%string], [:: v2 0 0]) [:: (1%z, D2 1 0)] None false = Raise LinAlgError.
Proof.
  apply: (@C75_not_positive_definite 2 _ _ _ (D2 1 0)) => //=.
  - move=> S'. rewrite inE => /eqP ->. by apply/matrixP => i j; rewrite !mxE eq_sym; case: eqP => [->|].
  - by rewrite mem_seq1.
  - move=> [_ H]. have /H : v2 0 1 != 0. apply/eqP => /colP /(_ i1). rewrite !mxE /=. by move/R1_neq_R0.
    rewrite qf_D2 !mxE /=. lra.
Qed.

(** ** Minimum risk. *)
Definition no_limits : limits := mkLimits None None None.
Definition args (p : ptype) (l : limits) : bt_args 2 := mkArgs p 0 (Some 1) 1 l false (Some 3%re) None.
Lemma any_within (l : limits) (w : 'cV[R]_2) : short_lim l = None -> upper_bound l = None -> lower_bound l = None -> within l w.
Proof. move=> H1 H2 H3. by rewrite /within H1 H2 H3. Qed.
Lemma port2 l (w : 'cV[R]_2) : portfolio l w -> w i1 ord0 = (1 - w i0 ord0)%re.
Proof. case. rewrite sum2 => H _. have H' : (w i0 ord0 + w i1 ord0)%re = 1%re := H. move: (w i0 ord0) (w i1 ord0) H' => x y. lra. Qed.
Lemma min2 l a b : Rlt 0 a -> Rlt 0 b -> within l (v2 (b / (a + b))%re (a / (a + b))%re) ->
  minimiser (vol (D2 a b)) (portfolio l) (v2 (b / (a + b))%re (a / (a + b))%re).
Proof.
  move=> Ha Hb Hl. split.
  - split=> //. rewrite sum2 !mxE /=. toR. field. lra.
  - move=> w Hw. rewrite /vol. apply: sqrt_le_1_alt. rewrite !qf_D2 !mxE /= (port2 Hw). set x := w i0 ord0.
    have E : (a * (b / (a + b) * (b / (a + b))) + b * (a / (a + b) * (a / (a + b))))%re = (a * b / (a + b))%re by field; lra.
    rewrite E. apply: (Rmult_le_reg_l (a + b)); first lra. have -> : ((a + b) * (a * b / (a + b)))%re = (a * b)%re by field; lra.
    have -> : ((a + b) * (a * (x * x) + b * ((1 - x) * (1 - x))))%re = (a * b + ((a + b) * x - b) * ((a + b) * x - b))%re by ring.
    have := Rle_0_sqr ((a + b) * x - b)%re. rewrite /Rsqr. lra.
Qed.
Lemma half_11 : v2 (1 / (1 + 1))%re (1 / (1 + 1))%re = v2 (/ 2) (/ 2).
Proof. congr v2; field. Qed.
Lemma half_14 : v2 (4 / (1 + 4))%re (1 / (1 + 4))%re = v2 (4 / 5) (1 / 5).
Proof. congr v2; field. Qed.
Lemma fresh_ok : well_formed (fresh_world 2) /\ forall r, consistent (fresh_world 2) r.
Proof. split=> // r. exists (fun=> (0, 0)). by constructor. Qed.
(** The weights are (1/2, 1/2) and (4/5, 1/5). *)
Example C69_nonvacuous T : trader_ok T -> t_times T = [:: 1%z; 2%z] -> t_Sigmas T = [:: D2 1 1; D2 1 4] ->
  let '(W', T', e) := backtest (@exact_solver 2) (fresh_world 2) T (args MinRisk no_limits) in
  e = None /\ t_ws T' = Some [:: Some (v2 (/ 2) (/ 2), [::]); Some (v2 (4 / 5) (1 / 5), [::])].
Proof.
  move=> HT Et ES. have [So Sf] := exact_solver_ok 2. have [Hwf Hco] := fresh_ok.
  have := C69_min_risk (a := args MinRisk no_limits) So HT Hwf erefl erefl erefl. have := @C69_solver_error 2 (@exact_solver 2) (fresh_world 2) T (args MinRisk no_limits) Sf.
  have M1 := @min2 no_limits 1 1 ltac:(lra) ltac:(lra) (@any_within no_limits _ erefl erefl erefl). rewrite half_11 in M1.
  have M2 := @min2 no_limits 1 4 ltac:(lra) ltac:(lra) (@any_within no_limits _ erefl erefl erefl). rewrite half_14 in M2.
  case: (backtest _ _ _ _) => [[W' T'] e] /= He [//|[-> [ws [ob [Ews [_ [Es H]]]]]]]. split=> //. rewrite Ews. congr Some. rewrite Et in Es H.
  case: H => [[_ [_ [_ H]]]|[[C|C] _]]; [|by case: (C (Hco 0%N))|by case: C; exists (v2 (/ 2) (/ 2)); exact: (proj1 M1)].
  have [w1 [E1 [N1 _]]] := H 0%N erefl. have [w2 [E2 [N2 _]]] := H 1%N erefl. rewrite ES /= in N1 N2.
  have U1 := C69_unique (@spd_D2 1 1 ltac:(lra) ltac:(lra)) N1 M1. have U2 := C69_unique (@spd_D2 1 4 ltac:(lra) ltac:(lra)) N2 M2. rewrite U1 in E1. rewrite U2 in E2.
  case: ws Ews Es H E1 E2 => [|x [|y [|? ?]]] //= _ _ _ -> ->. by [].
Qed.
Example C69_nonvacuous_exists : exists T : trader 2, trader_ok T /\ t_times T = [:: 1%z; 2%z] /\ t_Sigmas T = [:: D2 1 1; D2 1 4].
Proof. have [T [_ [H1 [H2 [_ [H3 _]]]]]] := C75_nonvacuous. by exists T. Qed.

(** ** Shared lists: a call with the default limits, then one without limits: None; the latter alone: weights. *)
Example C43_nonvacuous T : trader_ok T -> t_times T = [:: 1%z; 2%z] ->
  let W1 := (backtest (@exact_solver 2) (fresh_world 2) T (args MinRisk default_limits)).1.1 in
  t_ws (backtest (@exact_solver 2) W1 T (args MinRisk no_limits)).1.2 = Some [:: None; None].
Proof.
  move=> HT Et W1. have [So Sf] := exact_solver_ok 2. have [Hwf Hco] := fresh_ok.
  have Hno : ~ exists w : 'cV[R]_2, portfolio default_limits w by move/C43_default_limits.
  have := @C43_poison 2 (@exact_solver 2) (fresh_world 2) T (args MinRisk default_limits) [::] T (args MinRisk no_limits) So Hwf HT (conj erefl erefl) erefl Hno HT (conj erefl erefl) erefl erefl.
  have := @C69_solver_error 2 (@exact_solver 2) W1 T (args MinRisk no_limits) Sf.
  rewrite /= -/W1. case: (backtest _ W1 _ _) => [[W' T'] e] /= He [//|[_ ->]]. by rewrite Et.
Qed.
Example C43_harmless_nonvacuous T : trader_ok T ->
  let W1 := (backtest (@exact_solver 2) (fresh_world 2) T (args MinRisk no_limits)).1.1 in well_formed W1 /\ consistent W1 0.
Proof.
  move=> HT W1. have [Hwf Hco] := fresh_ok. split; first exact: (grows_wf Hwf (backtest_grows _ _ _ _)).
  have [_ H] := @min_risk_consistent 2 (@exact_solver 2) (fresh_world 2) T (args MinRisk no_limits) (conj erefl erefl) HT erefl Hwf. apply: H. split; first exact: Hco.
  have M1 := @min2 no_limits 1 1 ltac:(lra) ltac:(lra) (@any_within no_limits _ erefl erefl erefl). eexists. exact: (proj1 M1).
Qed.

(** ** Robust: with long-only limits the first day's volatilities (1, 1) make the penalty constant, so that on day 2 the
    answer is the plain minimum-risk portfolio (4/5, 1/5), whatever kappa; with the volatilities (1, 2) of day 2 it is not
    optimal. *)
Definition long_only : limits := mkLimits None None (Some R0).
Lemma long_only_v2 a b : Rle 0 a -> Rle 0 b -> within long_only (v2 a b).
Proof. move=> Ha Hb. split=> //. split=> // c [] <- i. rewrite mxE. by case: ifP. Qed.
Lemma abs_sum2 w : portfolio long_only w -> (\sum_i (\col_i sqrt (D2 1 1 i i)) i ord0 * Rabs (w i ord0))%R = 1.
Proof.
  move=> [Hs [_ [_ Hl]]]. rewrite sum2 !mxE /= sqrt_1. have H0 := Hl _ erefl i0. have H1 := Hl _ erefl i1. rewrite !Rabs_right; [|exact: Rle_ge|exact: Rle_ge].
  rewrite !mul1r. move: Hs. by rewrite sum2.
Qed.
Example C44_nonvacuous T : trader_ok T -> t_times T = [:: 1%z; 2%z] -> t_Sigmas T = [:: D2 1 1; D2 1 4] ->
  let '(W', T', e) := backtest (@exact_solver 2) (fresh_world 2) T (args RobustMinRisk long_only) in
  e = None /\ exists x, t_ws T' = Some [:: x; Some (v2 (4 / 5) (1 / 5), [::])].
Proof.
  move=> HT Et ES. have [So Sf] := exact_solver_ok 2. have [Hwf Hco] := fresh_ok.
  have := C44_first_volatilities (a := args RobustMinRisk long_only) (k := 3%re) So HT Hwf erefl erefl erefl erefl ltac:(lra).
  have := @C69_solver_error 2 (@exact_solver 2) (fresh_world 2) T (args RobustMinRisk long_only) Sf.
  have M2 := @min2 long_only 1 4 ltac:(lra) ltac:(lra). rewrite half_14 in M2. have {}M2 := M2 (@long_only_v2 (4 / 5)%re (1 / 5)%re ltac:(lra) ltac:(lra)).
  case: (backtest _ _ _ _) => [[W' T'] e] /= He [//|[-> [ws [Ews [Es H]]]]]. split=> //. rewrite Et in Es H.
  case: H => [[_ [_ H]]|[[C|C] _]]; [|by case: (C (Hco 0%N))|by case: C; eexists; exact: (proj1 M2)].
  have [w2 [E2 N2]] := H 1%N erefl. rewrite ES /= in N2.
  have N2' : minimiser (vol (D2 1 4)) (portfolio long_only) w2.
    case: N2 => P2 N2. split=> // y Hy. have := N2 y Hy. rewrite /robust_risk !abs_sum2 //. lra.
  have U2 := C69_unique (@spd_D2 1 4 ltac:(lra) ltac:(lra)) N2' M2. rewrite U2 in E2.
  case: ws Ews Es H E2 => [|x [|y [|? ?]]] //= Ews _ _ E2. exists x. by rewrite Ews E2.
Qed.

(** ** Mean-variance: forecasts 0, so that holding cash is optimal. *)
Example C70_nonvacuous T : trader_ok T -> t_times T = [:: 1%z; 2%z] -> t_Sigmas T = [:: D2 1 1; D2 1 4] -> t_rhats T = Some [:: 0; 0] ->
  let '(W', T', e) := backtest (@exact_solver 2) (fresh_world 2) T (args MeanVariance no_limits) in
  e = None /\ exists ob, t_obj T' = Some ob /\ ob = [:: R0; R0].
Proof.
  move=> HT Et ES Er. have [So Sf] := exact_solver_ok 2. have [Hwf Hco] := fresh_ok.
  have := @C70_mean_variance 2 (@exact_solver 2) (fresh_world 2) T (args MeanVariance no_limits) 1 _ [seq 0 | _ <- t_times T] So HT Hwf erefl erefl Er erefl.
  have := @C69_solver_error 2 (@exact_solver 2) (fresh_world 2) T (args MeanVariance no_limits) Sf.
  have Hf : forall S : 'M[R]_2, mv_portfolio no_limits S (1 * 1)%re (0, 1).
    move=> S. split; first by rewrite big1 ?add0r // => i _; rewrite mxE. split=> //. rewrite /vol /qf !mulmx0 mxE sqrt_0. lra.
  case: (backtest _ _ _ _) => [[W' T'] e] /= He. rewrite Et ES.
  case=> [//|[[_ [_ [_ [t [Ht C]]]]]|[-> [ws [ob [_ [Eo [_ H]]]]]]]]; first by case: C; exists (0, 1); exact: Hf.
  split=> //. exists ob. split=> //. case: H => [[_ [Hs H]]|H]; last first.
    have [_ [C|C]] := H 0%N erefl; [by case: (C (Hco 0%N))|by case: C; exists (0, 1); exact: Hf].
  have Z (u : 'cV[R]_2 * R) : mv_value 0 0 u = 0.
    rewrite /mv_value !big1; [exact: subr0| |] => i _; by rewrite mxE mul0r.
  have [u0 [_ [_ E0]]] := H 0%N erefl. have [u1 [_ [_ E1]]] := H 1%N erefl. rewrite /= Z in E0. rewrite /= Z in E1.
  by case: ob Hs Eo H E0 E1 => [|x [|y [|? ?]]] //= _ _ _ -> ->.
Qed.

(** ** Maximum diversification with at most half in one asset, and risk parity for the identity: (1/2, 1/2). *)
Lemma half_forced w : long_cap (/ 2) w -> w = v2 (/ 2) (/ 2).
Proof.
  move=> [H1 [H2 H3]]. rewrite (v2_eta w). have := H3 i0. have := H3 i1. rewrite sum2 in H2. have H2' : (w i0 ord0 + w i1 ord0)%re = 1%re := H2.
  move: (w i0 ord0) (w i1 ord0) H2' => x y H A B. congr v2; lra.
Qed.
Lemma half_cap : long_cap (/ 2) (v2 (/ 2) (/ 2)).
Proof. split; first by move=> i; rewrite mxE; case: ifP => _; lra. split; first by rewrite sum2 !mxE /=; toR; field. move=> i; rewrite mxE; case: ifP => _; lra. Qed.
Definition cap_half : limits := mkLimits None (Some (/ 2)%re) None.
Example C71_nonvacuous T : trader_ok T -> t_times T = [:: 1%z; 2%z] ->
  let '(W', T', e) := backtest (@exact_solver 2) (fresh_world 2) T (args MaxDiverse cap_half) in
  e = None /\ t_ws T' = Some [:: Some (v2 (/ 2) (/ 2), [::]); Some (v2 (/ 2) (/ 2), [::])].
Proof.
  move=> HT Et. have [So Sf] := exact_solver_ok 2.
  have := @C71_max_diversification 2 (@exact_solver 2) (fresh_world 2) T (args MaxDiverse cap_half) (/ 2)%re So HT erefl erefl erefl.
  have := @C69_solver_error 2 (@exact_solver 2) (fresh_world 2) T (args MaxDiverse cap_half) Sf.
  case: (backtest _ _ _ _) => [[W' T'] e] /= He [_ [//|[[_ C]|[-> [ws [Ews [Es H]]]]]]]; first by case: C; eexists; exact: half_cap.
  split=> //. rewrite Et in Es H. have [w1 [E1 [/half_forced U1 _]]] := H 0%N erefl. have [w2 [E2 [/half_forced U2 _]]] := H 1%N erefl. rewrite U1 in E1. rewrite U2 in E2. rewrite Ews.
  by case: ws Ews Es H E1 E2 => [|x [|y [|? ?]]] //= _ _ _ -> ->.
Qed.
Lemma parity_11 : risk_parity (D2 1 1) (v2 (/ 2) (/ 2)).
Proof.
  split; first by move=> i; rewrite mxE; case: ifP => _; lra. split; first by rewrite sum2 !mxE /=; toR; field.
  move=> i. rewrite qf_D2 !mxE sum2 !mxE /=. case: i => [[|[|m]] Hi] //=; toR; field.
Qed.
Example C72_nonvacuous T : trader_ok T -> t_times T = [:: 1%z; 2%z] -> t_Sigmas T = [:: D2 1 1; D2 1 4] ->
  let '(W', T', e) := backtest (@exact_solver 2) (fresh_world 2) T (args RiskParity no_limits) in
  e = None /\ exists x, t_ws T' = Some [:: Some (v2 (/ 2) (/ 2), [::]); x].
Proof.
  move=> HT Et ES. have [So Sf] := exact_solver_ok 2.
  have := @C72_risk_parity 2 (@exact_solver 2) (fresh_world 2) T (args RiskParity no_limits) erefl So HT erefl erefl.
  have := @C69_solver_error 2 (@exact_solver 2) (fresh_world 2) T (args RiskParity no_limits) Sf.
  case: (backtest _ _ _ _) => [[W' T'] e] /= He [_ [//|[-> [ws [Ews [Es H]]]]]].
  split=> //. rewrite Et in Es H. have [w1 [E1 [_ U1]]] := H 0%N erefl. rewrite ES /= in U1. rewrite -(U1 _ parity_11) in E1. rewrite Ews.
  case: ws Ews Es H E1 => [|x [|y [|? ?]]] //= _ _ _ ->. by exists y.
Qed.

(** ** vol_cont. *)
Example C73_nonvacuous T : trader_ok T -> t_ws_diluted T = None ->
  let T' := (backtest (@exact_solver 2) (fresh_world 2) T (args VolCont no_limits)).1.2 in
  (backtest (@exact_solver 2) (fresh_world 2) T (args VolCont no_limits)).2 = Some ValueError /\
  (get_metrics T' true (Some R1) None false).2 = Raise AttributeError.
Proof.
  move=> HT Hw T'. have [So Sf] := exact_solver_ok 2. have [Hwf Hco] := fresh_ok.
  have Hp : exists w : 'cV[R]_2, portfolio no_limits w.
    have M1 := @min2 no_limits 1 1 ltac:(lra) ltac:(lra) (@any_within no_limits _ erefl erefl erefl). eexists. exact: (proj1 M1).
  have [H1 [H2 H3]] := @C73_vol_cont_damage 2 (@exact_solver 2) (fresh_world 2) T (args VolCont no_limits) 1 So Sf HT Hwf erefl erefl erefl erefl (Hco _) Hp.
  split=> //. have [F1 [F2 [F3 [F4 [F5 [F6 [F7 _]]]]]]] := backtest_frame (@exact_solver 2) (fresh_world 2) T (args VolCont no_limits).
  apply: (@C73_lost_metrics 2 (@exact_solver 2) (fresh_world 2) T' [::] (fresh_world 2) T') => //; rewrite /T' ?F7 ?F1 //. have [_ [-> [H _]]] := HT. exact: H.
Qed.

(** ** Equal weights, diluted; history; metrics. *)
Definition eqT (T : trader 2) : trader 2 := (backtest (@exact_solver 2) (fresh_world 2) T (args EqWeighted no_limits)).1.2.
Example C41_nonvacuous T : trader_ok T -> t_diluted T = false ->
  let ws := [seq (v2 (/ 2) (/ 2), [::]) | _ <- t_times T] in
  trader_ok (eqT T) /\ t_diluted (eqT T) = false /\ t_ws (eqT T) = Some [seq Some w | w <- ws] /\ size ws = size (t_times (eqT T)) /\
  (forall w, w \in ws -> w.1 != 0 /\ row_sum w = 1).
Proof.
  move=> HT Hd ws. split=> //. split=> //. split.
    rewrite /eqT /backtest /= /ws. congr Some. rewrite -map_comp. apply: eq_map => t /=. congr (Some (_, _)). apply/colP => i. rewrite !mxE. by case: ifP.
  split; first by rewrite /ws size_map. move=> w Hw. have -> : w = (v2 (/ 2) (/ 2), [::]).
    move: Hw. rewrite /ws. elim: (t_times T) => [|t l IH] //=. by rewrite inE => /orP [/eqP|/IH].
  split.
    apply/eqP => /colP /(_ ord0). rewrite !mxE /=. toR. move=> H. have := pos_INR 0. lra.
  rewrite /row_sum big_nil sum2 !mxE /=. toR. eqR. field.
Qed.
Example C42_nonvacuous T : trader_ok T -> t_diluted T = false -> exists T1,
  t_diluted (eqT T) = false /\ dilute_with_cash (eqT T) (1 / 10)%re = (T1, None) /\ (0 < size (t_returns (eqT T)))%N /\
  t_adjust (history (@exact_solver 2) (fresh_world 2, T1) [:: OpBacktest (args MinRisk no_limits); OpDilute 2 1; OpMetrics 2 true (Some R1) None false]).2 = t_adjust (eqT T).
Proof.
  move=> HT Hd. have [H1 [H2 [H3 [H4 H5]]]] := C41_nonvacuous HT Hd. have [wd [E _]] := @C41_dilute 2 _ (1 / 10)%re _ H1 H2 H3 H4 H5 ltac:(lra).
  exists (set_ws_diluted wd (eqT T)). split=> //. split=> //. split; first by have [_ [-> [H _]]] := HT; exact: H.
  rewrite /history /=. have [_ [_ [_ [_ [_ [_ [_ [Hd' [Hw' [_ [_ [E1 _]]]]]]]]]]]] := backtest_frame (@exact_solver 2) (fresh_world 2) (set_ws_diluted wd (eqT T)) (args MinRisk no_limits).
  have Hd2 := Hd' erefl. set B := backtest _ _ _ _ in E1 Hd2 *. rewrite /dilute_with_cash Hd2.
  have Hm T0 : t_diluted T0 = true -> t_adjust (get_metrics T0 true (Some R1) None false).1 = @t_adjust 2 T0.
    move=> HT0. rewrite /get_metrics. have [E0|[xs E0]] := total_returns_same true (Some R1) None HT0; case E2: (get_total_returns _ _ _ _) => [T2 e2].
    - rewrite E2 /= in E0. rewrite E0. case: e2 {E2} => // . rewrite /get_portfolio_growth. by case: (t_rets T0).
    - move: E0; rewrite E2 => -[] -> ->. by [].
  by rewrite (Hm _ Hd2) E1.
Qed.

(** Returns 1/10 and -1/10: mean 0, drawdown 1/10. *)
Lemma eq_rets T : trader_ok T -> t_diluted T = false -> t_times T = [:: 1%z; 2%z] -> t_returns T = ret2 ->
  get_total_returns (eqT T) false None None = (set_rets [:: (1 / 10)%re; (- (1 / 10))%re] (eqT T), None).
Proof.
  move=> HT Hd Et Er. have [_ [_ [H3 _]]] := C41_nonvacuous HT Hd.
  rewrite (@C74_plain_returns 2 (eqT T) _ None None H3) //; last first.
  - move=> w. elim: (t_times T) => [|t l IH] //=. by rewrite inE => /orP [/eqP ->|/IH].
  - by rewrite size_map Et [t_returns _]Er.
  have -> : t_returns (eqT T) = ret2 by exact: Er. congr (set_rets _ _, _).
  rewrite /returns_of /= Et /= /day_return /= !big_nil !sum2 !mxE /=. toR. congr [:: _; _]; eqR; field.
Qed.
Lemma std_2 : std [:: (1 / 10)%re; (- (1 / 10))%re] = (1 / 10)%re.
Proof.
  rewrite /std /mean /= !big_cons !big_nil. toR. set x := (_ - _)%re. have -> : x = (1 / 10 * (1 / 10))%re by rewrite /x; field. apply: sqrt_square. lra.
Qed.
Example C40_nonvacuous : std [:: (1 / 10)%re; (- (1 / 10))%re] <> 0.
Proof. rewrite std_2. toR. lra. Qed.
Example C74_nonvacuous T : trader_ok T -> t_diluted T = false -> t_times T = [:: 1%z; 2%z] -> t_returns T = ret2 ->
  exists T' m, get_metrics (eqT T) false None None false = (T', Ok m) /\ m_mean m = 0 /\ m_risk m = (sqrt 252 / 10)%re /\ m_drawdown m = (1 / 10)%re.
Proof.
  move=> HT Hd Et Er. have := @C74_metrics 2 (eqT T) false None None false. rewrite /get_metrics (eq_rets HT Hd Et Er) /get_portfolio_growth /=.
  set dd := compute_max_drawdown _. have -> : dd = Ok (1 / 10)%re.
    rewrite /dd /compute_max_drawdown /= /t_adjust /=. rdec H1; first by lra. rdecE H2; first by lra. rdec H3; first by lra.
    rdec H4; first by lra. rdecE H5; first by lra. rdec H6; last by lra. congr Ok. field.
  move=> /= H. do 2 eexists. split; first by reflexivity. have [r [Vs [Er' [_ [_ [_ [_ [_ [Hm _]]]]]]]]] := H _ _ erefl. have [M1 M2] := Hm erefl. move: Er' => /= [] Er'. rewrite -Er' /= in M1 M2.
  split; [|split=> //].
  - rewrite M1 /mean /= !big_cons !big_nil. toR. field.
  - rewrite M2. have -> : [:: (1 / 10 / 1)%re; (- (1 / 10) / 1)%re] = [:: (1 / 10)%re; (- (1 / 10))%re] by congr [:: _; _]; field. rewrite std_2. field.
Qed.
