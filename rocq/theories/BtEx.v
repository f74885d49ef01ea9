(** * Non-vacuity of the theorems of PropBt.v. *)
From Coq Require Import Reals ZArith String List Lra Lia.
Set Warnings "-notation-overridden,-ambiguous-paths".
From mathcomp Require Import all_ssreflect all_algebra zify.
From Verif Require Import RStruct MatR Num Py Spec Combination Trader SpecTrader TraderMain Backtests SpecBt BacktestProps BacktestMain BacktestKinds BacktestFinal PropTrader TraderEx PropBt.
Set Implicit Arguments.
Unset Strict Implicit.
Unset Printing Implicit Defensive.
Import GRing.Theory.
Local Open Scope ring_scope.
Delimit Scope R_scope with re.
Delimit Scope Z_scope with z.

(** Four days, the return of the second asset on day 3 is missing: traded are days 1 and 3. *)
Definition o2 (a b : option R) : row 2 := \col_i (if (nat_of_ord i == 0)%N then a else b).
Definition rows4 : seq (row 2) := [:: o2 (Some R1) (Some R1); o2 (Some 2%re) (Some R0); o2 (Some R1) None; o2 (Some R0) (Some 5%re)].
Definition fr4 : rframe 2 := ([:: 1%z; 2%z; 3%z; 4%z], [:: "a"%string; "b"%string], rows4).
Definition sgA : seq (Z * 'M[R]_2) := [:: (1%z, D2 1 1); (2%z, D2 1 1); (3%z, D2 1 4); (4%z, D2 1 1)].
Definition sgB : seq (Z * 'M[R]_2) := [:: (1%z, D2 1 4); (3%z, D2 1 4); (4%z, D2 1 1)].
Definition mn4 : frame 2 := ([:: 1%z; 2%z; 3%z; 4%z], [:: "a"%string; "b"%string], [:: v2 1 0; v2 0 1; v2 1 1; v2 0 0]).
Definition bt4 : pbt 2 := mkPbt fr4 [:: sgA; sgB] (Some [:: mn4; mn4]) [:: "A"%string; "B"%string; "C"%string] 1%z 4%z.

Lemma fr4_good : good_frame fr4. Proof. by do 2 split. Qed.
Lemma o2_v2 a b (r : 'cV[R]_2) : (forall i, o2 a b i ord0 = Some (r i ord0)) -> Some (r i0 ord0) = a /\ Some (r i1 ord0) = b.
Proof. move=> H. have H0 := H i0. have H1 := H i1. rewrite !mxE /= in H0 H1. by split. Qed.
Lemma traded4 t r : traded fr4 1 4 t r <-> (t = 1%z /\ r = v2 2 0) \/ (t = 3%z /\ r = v2 0 5).
Proof.
  split.
  - case=> [[|[|[|j]]]] [t' [q]] /= [H1 [H2 [H3 [_ [_ H]]]]].
    + case: H1 => <-. case: H3 H => <- /o2_v2 [[E1] [E2]]. left. split=> //. rewrite (v2_eta r). by rewrite E1 E2.
    + by case: H3 H => <- /o2_v2 [_].
    + case: H1 => <-. case: H3 H => <- /o2_v2 [[E1] [E2]]. right. split=> //. rewrite (v2_eta r). by rewrite E1 E2.
    + by case: j H2 {H1 H3}.
  - case=> [[-> ->]|[-> ->]].
    + exists 0%N, 2%z, (o2 (Some 2%re) (Some R0)). do 5 split=> //. move=> i. rewrite !mxE. by case: ifP.
    + exists 2%N, 4%z, (o2 (Some R0) (Some 5%re)). do 5 split=> //. move=> i. rewrite !mxE. by case: ifP.
Qed.
Lemma bt4_good : good_frame (b_returns bt4). Proof. exact: fr4_good. Qed.
Lemma bt4_names : good_names bt4.
Proof. split; first by rewrite /=; lia. repeat constructor; rewrite /=; intuition discriminate. Qed.
Lemma bt4_covered : all_covered bt4.
Proof.
  have D11 : spd (D2 1 1) by apply: spd_D2; lra. have D14 : spd (D2 1 4) by apply: spd_D2; lra.
  move=> [|[|[|i]]] Sg //= [<-]; (split; [|by exists 1%z, (v2 2 0); apply/traded4; left]) => t r /traded4 [[-> _]|[-> _]]; by eexists; split; [reflexivity|].
Qed.

(** C45: dates 1 and 3, with the returns of days 2 and 4. *)
Example C45_nonvacuous : exists St, get_causal fr4 sgA 1 4 None = Ok (([:: 1%z; 3%z], [:: "a"%string; "b"%string], [:: v2 2 0; v2 0 5]), St, None).
Proof.
  have [|[[ts cols] rows] [St E]] := @C45_total 2 fr4 sgA 1 4 fr4_good. by move=> t r /traded4 [[-> _]|[-> _]].
  have [Hi [Hc [Hs [Ht _]]]] := C45_causal fr4_good E. rewrite /= in Hi Hc Hs Ht. rewrite Hc in E. exists St. rewrite E. congr (Ok (_, _, _, _, _)).
  - have H1 : List.In (1%z, v2 2 0) (zip ts rows) by apply/Ht/traded4; left. have H3 : List.In (3%z, v2 0 5) (zip ts rows) by apply/Ht/traded4; right.
    have Hall t r : List.In (t, r) (zip ts rows) -> t = 1%z \/ t = 3%z by move/Ht/traded4 => [[-> _]|[-> _]]; [left|right].
    case: ts rows Hi Hs H1 H3 Hall {Ht E} => [|t1 [|t2 [|t3 ts]]] [|r1 [|r2 [|r3 rows]]] //= Hi Hs H1 H3 Hall.
    + by case: H1 H3 => [[-> _]|//] [[]|].
    + have := Hall t1 r1 ltac:(left; reflexivity). have := Hall t2 r2 ltac:(right; left; reflexivity). case: Hi => Hi _. move=> [E2|E2] [E1|E1]; subst; by [lia|].
    + have := Hall t1 r1 ltac:(left; reflexivity). have := Hall t2 r2 ltac:(right; left; reflexivity). have := Hall t3 r3 ltac:(right; right; left; reflexivity). lia.
  - have H1 : List.In (1%z, v2 2 0) (zip ts rows) by apply/Ht/traded4; left. have H3 : List.In (3%z, v2 0 5) (zip ts rows) by apply/Ht/traded4; right.
    have Hall t r : List.In (t, r) (zip ts rows) -> (t = 1%z /\ r = v2 2 0) \/ (t = 3%z /\ r = v2 0 5) by move/Ht/traded4.
    case: ts rows Hi Hs H1 H3 Hall {Ht E} => [|t1 [|t2 [|t3 ts]]] [|r1 [|r2 [|r3 rows]]] //= Hi Hs H1 H3 Hall.
    + by case: H1 H3 => [[-> _]|//] [[]|].
    + have := Hall t1 r1 ltac:(left; reflexivity). have := Hall t2 r2 ltac:(right; left; reflexivity). case: Hi => Hi _. move=> [[E2 E2']|[E2 E2']] [[E1 E1']|[E1 E1']]; subst; by [lia|].
    + have := Hall t1 r1 ltac:(left; reflexivity). have := Hall t2 r2 ltac:(right; left; reflexivity). have := Hall t3 r3 ltac:(right; right; left; reflexivity). lia.
Qed.
(** C45_shift: without the missing return, days 1, 2, 3. *)
Definition fr4' : rframe 2 := ([:: 1%z; 2%z; 3%z; 4%z], [:: "a"%string; "b"%string], [:: o2 (Some R1) (Some R1); o2 (Some 2%re) (Some R0); o2 (Some R1) (Some R1); o2 (Some R0) (Some 5%re)]).
Example C45_shift_nonvacuous : exists rt St mt, get_causal fr4' sgA 1 3 None = Ok (rt, St, mt) /\ rt.1.1 = [:: 1%z; 2%z].
Proof.
  have Hg : good_frame fr4' by do 2 split. have [|rt [St E]] := @C45_total 2 fr4' sgA 1 3 Hg.
    move=> t r [[|[|[|[|j]]]] [t' [q [H1 _]]]]; [by case: H1 => <-|by case: H1 => <-|by case: H1 => <-|by case: H1 => <-|by case: j H1].
  exists rt, St, None. split=> //. have [|-> _] := C45_shift Hg _ E; last by [].
  move=> q i /= [<-|[<-|[<-|[<-|//]]]]; rewrite mxE; by case: ifP.
Qed.
(** C45_missing, C82: with the full returns, predictor B has no forecast for day 2. *)
Example C82_nonvacuous solve W d : (run_backtest solve W (mkPbt fr4' [:: sgA; sgB] None [:: "A"%string; "B"%string] 1 4) (KEqWeighted 2)).2 <> Ok d.
Proof.
  apply: (@C82_all_or_nothing 2 solve _ _ W 1 sgB 2%z (v2 1 1)) => //.
  exists 1%N, 3%z, (o2 (Some R1) (Some R1)). do 5 split=> //. move=> i. rewrite !mxE. by case: ifP.
Qed.
(** C83, C84, C88. *)
Lemma no_lim : exists w : 'cV[R]_2, portfolio no_limits w.
Proof. exists (v2 1 0). split; last exact: any_within. rewrite sum2 !mxE /=. toR. ring. Qed.
Example C83_nonvacuous : exists W' d, run_backtest (@exact_solver 2) (fresh_world 2) bt4 (KMinRisk 2 no_limits) = (W', Ok d) /\
  results bt4 d (fun _ _ S => plain (minimiser (vol S) (portfolio no_limits))).
Proof.
  have [So Sf] := exact_solver_ok 2. have [Hwf Hco] := fresh_ok.
  have [W' [d [E [_ H]]]] := C83_min_risk So Sf Hwf (Hco 0%N) no_lim bt4_good bt4_names bt4_covered. by exists W', d.
Qed.
(** On day 3 both predictors forecast diag(1, 4): both hold (4/5, 1/5). *)
Example C84_nonvacuous : exists W' d TA TB wa wb, run_backtest (@exact_solver 2) (fresh_world 2) bt4 (KMinRisk 2 no_limits) = (W', Ok d) /\
  dict_get String.eqb d "A"%string = Some TA /\ dict_get String.eqb d "B"%string = Some TB /\ t_ws TA = Some wa /\ t_ws TB = Some wb /\
  exists j1 j2, List.nth_error (t_times TA) j1 = Some 3%z /\ List.nth_error (t_times TB) j2 = Some 3%z /\ 
    List.nth_error wa j1 = Some (Some (v2 (4 / 5) (1 / 5), [::])) /\ List.nth_error wb j2 = Some (Some (v2 (4 / 5) (1 / 5), [::])).
Proof.
  have [So Sf] := exact_solver_ok 2. have [Hwf Hco] := fresh_ok. have D14 : spd (D2 1 4) by apply: spd_D2; lra.
  have [W' [d [E HR]]] := C83_nonvacuous. have [_ H] := HR. have [nA [TA [A1 [A2 [A3 A4]]]]] := H 0%N sgA erefl. have [nB [TB [B1 [B2 [B3 _]]]]] := H 1%N sgB erefl.
  case: A1 A2 => <- A2. case: B1 B2 => <- B2. have day T Sg : causal_trader fr4 Sg 1 4 T -> exists j, List.nth_error (t_times T) j = Some 3%z.
    move=> [_ [_ [_ [Hc _]]]]. have : List.In (3%z, v2 0 5) (zip (t_times T) (t_returns T)) by apply/Hc/traded4; right. move=> /In_zip [j [Hj _]]. by exists j.
  have [j1 J1] := day _ _ A3. have [j2 J2] := day _ _ B3.
  have [u [[wa [U1 U2]] [wb [U3 U4]]]] := C84_no_look_ahead So So Sf Sf (conj Hwf (Hco 0%N)) (conj Hwf (Hco 0%N)) no_lim (conj bt4_good (conj bt4_names bt4_covered)) (conj bt4_good (conj bt4_names bt4_covered)) E E
    (i1 := 0%N) (i2 := 1%N) erefl erefl erefl erefl A2 B2 J1 J2 erefl.
  have [ws [V1 [_ V2]]] := A4. have [S [w [V3 [V4 [u' [V5 V6]]]]]] := V2 _ _ J1. case: V3 V6 => <- V6. rewrite U1 in V1. case: V1 => V1. rewrite -V1 U2 V5 in V4. case: V4 => V4.
  have M2 := @min2 no_limits 1 4 ltac:(lra) ltac:(lra) (@any_within no_limits _ erefl erefl erefl). rewrite half_14 in M2. have Eu := C69_unique D14 V6 M2. 
  exists W', d, TA, TB, wa, wb. do 5 split=> //. exists j1, j2. do 2 split=> //. by rewrite U2 U4 V4 Eu.
Qed.
(** With it: the return earned by A on day 3 is 4/5 * 0 + 1/5 * 5. *)
Example C88_nonvacuous : exists W' d TA rets j, run_backtest (@exact_solver 2) (fresh_world 2) bt4 (KMinRisk 2 no_limits) = (W', Ok d) /\
  dict_get String.eqb d "A"%string = Some TA /\ List.nth_error (t_times TA) j = Some 3%z /\ get_total_returns TA false None None = (set_rets rets TA, None) /\ nth R0 rets j = 1.
Proof.
  have [W' [d [TA [TB [wa [wb [E [A1 [_ [A3 [_ [j [_ [J [_ [Hw _]]]]]]]]]]]]]]]] := C84_nonvacuous. have [W2 [d2 [E2 HR]]] := C83_nonvacuous. rewrite E in E2. case: E2 => _ E2. rewrite -E2 in HR.
  have [||//|rets [ws [R1 [R2 [_ R3]]]]] := @C88_earned 2 _ _ _ bt4 _ d _ 0%N sgA "A"%string TA None None E _ HR _ erefl erefl A1; [by []|by move=> ? ? ? ? [u [Hu _]]; exists u|].
  exists W', d, TA, rets, j. do 4 split=> //. have [u [r [U1 [U2 ->]]]] := R3 _ _ J. rewrite R2 in A3. case: A3 => A3. rewrite A3 Hw in U1. case: U1 => <-.
  move/traded4: U2 => [[//]|[_ ->]]. rewrite sum2 !mxE /=. toR. field.
Qed.
(** C85. *)
Lemma cap1 : exists w : 'cV[R]_2, long_cap 1 w.
Proof. exists (v2 (/ 2) (/ 2)). split; first by move=> i; rewrite mxE; case: ifP => _; lra. split; last by move=> i; rewrite mxE; case: ifP => _; lra. rewrite sum2 !mxE /=. toR. field. Qed.
Example C85_nonvacuous : (exists W d, run_backtest (@exact_solver 2) (fresh_world 2) bt4 (KEqWeighted 2) = (W, Ok d)) /\
  (exists W d, run_backtest (@exact_solver 2) (fresh_world 2) bt4 (KMaxDiverse 2 (mkLimits None (Some R1) None)) = (W, Ok d)) /\
  (exists W d, run_backtest (@exact_solver 2) (fresh_world 2) bt4 (KRiskParity 2) = (W, Ok d)) /\
  (exists W d, run_backtest (@exact_solver 2) (fresh_world 2) bt4 (KMeanVariance no_limits (Some R1) (Some [:: (1%z, v2 1 0); (3%z, v2 0 1)])) = (W, Ok d)).
Proof.
  have [So Sf] := exact_solver_ok 2. have [Hwf Hco] := fresh_ok. split; [|split; [|split]].
  - have [d [E _]] := C85_eq_weighted (@exact_solver 2) (fresh_world 2) bt4_good bt4_names bt4_covered. by do 2 eexists; exact: E.
  - have [W [d [E _]]] := C85_max_diverse (fresh_world 2) So Sf (l := mkLimits None (Some R1) None) erefl cap1 bt4_good bt4_names bt4_covered. by exists W, d.
  - have [W [d [E _]]] := C85_risk_parity (fresh_world 2) So Sf bt4_good bt4_names bt4_covered. by exists W, d.
  - have [|||W [d [E _]]] := @C85_mean_variance 2 (@exact_solver 2) (fresh_world 2) bt4 no_limits 1 (Some [:: (1%z, v2 1 0); (3%z, v2 0 1)]) So Sf Hwf (Hco 0%N) bt4_good bt4_names bt4_covered.
    + move=> [|[|[|i]]] Sg //= _; exists mn4; (split; first by []); split=> // t r /traded4 [[-> _]|[-> _]]; by [].
    + move=> i Sg t r S _ _ _. exists (0, R1). split; first by rewrite big1 ?add0r // => i1 _; rewrite mxE. split; last exact: any_within.
      have -> : vol S 0 = 0%re. rewrite /vol. have -> : qf S 0 = 0 by rewrite /qf mulmx0 mxE. exact: sqrt_0. rewrite Rmult_0_r. lra.
    + move=> t r /traded4 [[-> _]|[-> _]]; (eexists; split; first by reflexivity); move=> i; rewrite mxE; case: ifP => _; lra.
    + by exists W, d.
Qed.
(** C84_other_strategies: on day 3 both predictors forecast diag(1, 4), and the two risk parity traders hold the same weights. *)
Example C84_other_nonvacuous : exists W' d TA TB u wa wb, run_backtest (@exact_solver 2) (fresh_world 2) bt4 (KRiskParity 2) = (W', Ok d) /\
  dict_get String.eqb d "A"%string = Some TA /\ dict_get String.eqb d "B"%string = Some TB /\ t_ws TA = Some wa /\ t_ws TB = Some wb /\
  exists j1 j2, List.nth_error (t_times TA) j1 = Some 3%z /\ List.nth_error (t_times TB) j2 = Some 3%z /\
    List.nth_error wa j1 = Some (Some (u, [::])) /\ List.nth_error wb j2 = Some (Some (u, [::])) /\ risk_parity (D2 1 4) u.
Proof.
  have [So Sf] := exact_solver_ok 2.
  have [W' [d [E [_ HR]]]] := C85_risk_parity (fresh_world 2) So Sf bt4_good bt4_names bt4_covered. have [_ H] := HR. have [nA [TA [A1 [A2 [A3 A4]]]]] := H 0%N sgA erefl. have [nB [TB [B1 [B2 [B3 _]]]]] := H 1%N sgB erefl.
  case: A1 A2 => <- A2. case: B1 B2 => <- B2. have day T Sg : causal_trader fr4 Sg 1 4 T -> exists j, List.nth_error (t_times T) j = Some 3%z.
    move=> [_ [_ [_ [Hc _]]]]. have : List.In (3%z, v2 0 5) (zip (t_times T) (t_returns T)) by apply/Hc/traded4; right. move=> /In_zip [j [Hj _]]. by exists j.
  have [j1 J1] := day _ _ A3. have [j2 J2] := day _ _ B3.
  have [u [[wa [U1 U2]] [wb [U3 U4]]]] := @C84_other_strategies 2 _ _ _ _ _ _ (KRiskParity 2) bt4 bt4 d d 0%N 1%N sgA sgB "A"%string "B"%string TA TB j1 j2 3%z So So Sf Sf I
    (conj bt4_good (conj bt4_names bt4_covered)) (conj bt4_good (conj bt4_names bt4_covered)) E E erefl erefl erefl erefl A2 B2 J1 J2 erefl.
  have [ws [V1 [_ V2]]] := A4. have [S [w [V3 [V4 [u' [V5 V6]]]]]] := V2 _ _ J1. case: V3 V6 => <- V6. rewrite U1 in V1. case: V1 => V1. rewrite -V1 U2 V5 in V4. case: V4 => V4.
  exists W', d, TA, TB, u, wa, wb. do 5 split=> //. exists j1, j2. do 4 split=> //. by rewrite V4.
Qed.
(** C86: the window of the last predictor. *)
Example C86_nonvacuous : new_backtest fr4 [:: sgA; [:: (2%z, D2 1 1); (3%z, D2 1 4)]] [:: "A"%string; "B"%string] None None None = Ok (mkPbt fr4 [:: sgA; [:: (2%z, D2 1 1); (3%z, D2 1 4)]] None [:: "A"%string; "B"%string] 2%z 3%z).
Proof. by []. Qed.
(** C54, C87. *)
Definition met (x : R) : metrics := mkMetrics x x None x.
Example C54_nonvacuous : exists lines, table_helper [:: ("PRESCIENT"%string, met 1); ("A"%string, met 2)] true = (lines, None) /\
  List.nth_error lines 3 = Some (LRow "A"%string 100 100 None 100).
Proof. have [nm [Hn E]] := @C54_last_label [:: ("PRESCIENT"%string, met 1); ("A"%string, met 2)] (met 1) erefl. eexists. split; first by rewrite E. case: Hn => <-. rewrite /= /pct_line /=. congr (Some (LRow _ _ _ _ _)); toR; ring. Qed.
Example C87_nonvacuous (T : trader 2) : trader_ok T -> t_diluted T = false -> t_times T = [:: 1%z; 2%z] -> t_returns T = ret2 ->
  exists T' m, create_table [:: ("A"%string, eqT T)] None None false false = ([:: ("A"%string, T')], ([:: LBegin; LRow "A"%string 0 (m_risk m * 100) (m_sharpe m) (m_drawdown m * 100); LHline; LEnd], None)) /\ m_mean m = 0.
Proof.
  move=> HT Hd Et Er. have [T' [m [E [H _]]]] := C74_nonvacuous HT Hd Et Er. exists T', m. split=> //.
  have [||E1 [E2 _]] := @C87_table 2 [:: ("A"%string, eqT T)] None None None false [:: (T', m)]; [by split=> // [[]]|by constructor|].
  rewrite E1 E2 /= /pct_line H. by do 2 f_equal; congr (_ :: LRow _ _ _ _ _ :: _); toR; ring.
Qed.
