(** * No look-ahead for the other strategies of portfolio_backtests.py. *)
From Coq Require Import Reals ZArith String List Lia Lra Classical.
Set Warnings "-notation-overridden,-ambiguous-paths".
From mathcomp Require Import all_ssreflect all_algebra zify.
From Verif Require Import RStruct MatR Num Py Spec ListFacts Combination Trader SpecTrader TraderLists LowRankProps Simplex Compact EwmaReal CombExist Spectral TraderOpt TraderBt TraderCalc TraderPort TraderUnique TraderParity TraderMain TraderHist TraderFinal Backtests SpecBt BacktestProps BacktestMain BacktestKinds BacktestFinal.
Set Implicit Arguments.
Unset Strict Implicit.
Unset Printing Implicit Defensive.
Import GRing.Theory.
Local Open Scope ring_scope.
Delimit Scope R_scope with re.
Delimit Scope Z_scope with z.

Section Look.
  Context (n : nat).
  Notation vec := 'cV[R]_n.
  Implicit Types (W : world n) (T : trader n) (B : pbt n).

  (** Weights of one date, in terms of the forecast of that date. *)
  Lemma weights_at B d ok i Sg name T j t S : results B d ok -> List.nth_error (b_covs B) i = Some Sg -> List.nth_error (b_names B) i = Some name ->
    dict_get String.eqb d name = Some T -> List.nth_error (t_times T) j = Some t -> dict_get Z.eqb Sg t = Some S ->
    exists ws w, t_ws T = Some ws /\ List.nth_error ws j = Some w /\ ok i t S w.
  Proof.
    move=> [_ R1] Hc Hn Hd Hj HS. have [nm [T' [A1 [A2 [_ [ws [A3 [_ A4]]]]]]]] := R1 _ _ Hc. rewrite Hn in A1. case: A1 => A1. rewrite -A1 Hd in A2. case: A2 => A2. rewrite -A2 in A3 A4.
    have [S1 [w [F1 [F2 F3]]]] := A4 _ _ Hj. rewrite HS in F1. case: F1 => F1. rewrite -F1 in F3. by exists ws, w.
  Qed.
  (** The forecast of a date of the trader exists and is positive definite. *)
  Lemma forecast_at B d ok i Sg name T j t : results B d ok -> all_covered B -> List.nth_error (b_covs B) i = Some Sg -> List.nth_error (b_names B) i = Some name ->
    dict_get String.eqb d name = Some T -> List.nth_error (t_times T) j = Some t -> exists S, dict_get Z.eqb Sg t = Some S /\ spd S.
  Proof.
    move=> [_ R1] Hcov Hc Hn Hd Hj. have [nm [T' [A1 [A2 [A3 _]]]]] := R1 _ _ Hc. rewrite Hn in A1. case: A1 => A1. rewrite -A1 Hd in A2. case: A2 => A2. rewrite -A2 in A3.
    have [Q1 [Q2 [_ [Q4 _]]]] := A3. have [r Hr] : exists r, traded (b_returns B) (b_start B) (b_end B) t r.
      exists (nth 0 (t_returns T) j). apply/Q4/In_zip. exists j. split=> //. apply: nth_error_nth. by rewrite Q2 (lt_of_nth Hj).
    exact: (proj1 (Hcov _ _ Hc)) Hr.
  Qed.
  Lemma look_gen (P : 'M[R]_n -> vec -> Prop) B1 B2 d1 d2 i1 i2 Sg1 Sg2 name1 name2 T1 T2 j1 j2 t :
    (forall S u u', spd S -> P S u -> P S u' -> u = u') ->
    results B1 d1 (fun _ _ S => plain (P S)) -> results B2 d2 (fun _ _ S => plain (P S)) -> all_covered B1 ->
    List.nth_error (b_covs B1) i1 = Some Sg1 -> List.nth_error (b_covs B2) i2 = Some Sg2 ->
    List.nth_error (b_names B1) i1 = Some name1 -> List.nth_error (b_names B2) i2 = Some name2 ->
    dict_get String.eqb d1 name1 = Some T1 -> dict_get String.eqb d2 name2 = Some T2 ->
    List.nth_error (t_times T1) j1 = Some t -> List.nth_error (t_times T2) j2 = Some t ->
    dict_get Z.eqb Sg1 t = dict_get Z.eqb Sg2 t ->
    exists u, (exists ws, t_ws T1 = Some ws /\ List.nth_error ws j1 = Some (Some (u, [::]))) /\ exists ws, t_ws T2 = Some ws /\ List.nth_error ws j2 = Some (Some (u, [::])).
  Proof.
    move=> HP R1 R2 C1 Hc1 Hc2 Hn1 Hn2 Hd1 Hd2 Hj1 Hj2 HS. have [S [HS1 Hspd]] := forecast_at R1 C1 Hc1 Hn1 Hd1 Hj1.
    have [ws1 [w1 [A1 [A2 [u1 [A3 A4]]]]]] := weights_at R1 Hc1 Hn1 Hd1 Hj1 HS1. rewrite HS in HS1.
    have [ws2 [w2 [D1 [D2 [u2 [D3 D4]]]]]] := weights_at R2 Hc2 Hn2 Hd2 Hj2 HS1.
    exists u1. split; first by exists ws1; rewrite A2 A3. exists ws2. by rewrite D2 D3 (HP S u1 u2).
  Qed.

  Definition unique_kind (k : kind n) : Prop :=
    match k with
    | KEqWeighted => True | KRiskParity => True
    | KMaxDiverse l => exists M, upper_bound l = Some M /\ exists w : vec, long_cap M w
    | _ => False
    end.
  Lemma look_run (solve1 solve2 : solver_t n) W1 W2 W1' W2' k B1 B2 d1 d2 i1 i2 Sg1 Sg2 name1 name2 T1 T2 j1 j2 t :
    solve_ok solve1 -> solve_ok solve2 -> (forall f P, solve1 f P <> Failed n) -> (forall f P, solve2 f P <> Failed n) -> unique_kind k ->
    good_frame (b_returns B1) /\ good_names B1 /\ all_covered B1 -> good_frame (b_returns B2) /\ good_names B2 /\ all_covered B2 ->
    run_backtest solve1 W1 B1 k = (W1', Ok d1) -> run_backtest solve2 W2 B2 k = (W2', Ok d2) ->
    List.nth_error (b_covs B1) i1 = Some Sg1 -> List.nth_error (b_covs B2) i2 = Some Sg2 ->
    List.nth_error (b_names B1) i1 = Some name1 -> List.nth_error (b_names B2) i2 = Some name2 ->
    dict_get String.eqb d1 name1 = Some T1 -> dict_get String.eqb d2 name2 = Some T2 ->
    List.nth_error (t_times T1) j1 = Some t -> List.nth_error (t_times T2) j2 = Some t ->
    dict_get Z.eqb Sg1 t = dict_get Z.eqb Sg2 t ->
    exists u, (exists ws, t_ws T1 = Some ws /\ List.nth_error ws j1 = Some (Some (u, [::]))) /\ exists ws, t_ws T2 = Some ws /\ List.nth_error ws j2 = Some (Some (u, [::])).
  Proof.
    move=> S1 S2 F1 F2 Hk [G1 [N1 C1]] [G2 [N2 C2]] E1 E2 Hc1 Hc2 Hn1 Hn2 Hd1 Hd2 Hj1 Hj2 HS.
    have [P [HP [R1 R2]]] : exists P : 'M[R]_n -> vec -> Prop, (forall S u u', spd S -> P S u -> P S u' -> u = u') /\
        results B1 d1 (fun _ _ S => plain (P S)) /\ results B2 d2 (fun _ _ S => plain (P S)).
      case: k Hk E1 E2 => [|l|l||l sd rh] //= Hk E1 E2.
      - exists (fun _ u => forall i, u i ord0 = (/ INR n)%re). split; first by move=> S u u' _ Hu Hu'; apply/colP => i; rewrite Hu Hu'.
        have [e1 [X1 X2]] := eq_main solve1 W1 G1 N1 C1. have [e2 [Y1 Y2]] := eq_main solve2 W2 G2 N2 C2. rewrite E1 in X1. case: X1 => _ ->. rewrite E2 in Y1. by case: Y1 => _ ->.
      - case: Hk => M [HM Hl]. exists (fun S u => long_cap M u /\ forall u', long_cap M u' -> Rle (div_ratio S u') (div_ratio S u)). split; first by move=> S u u' HSp; exact: md_unique.
        have [V1 [e1 [X1 [_ X2]]]] := md_bt_main W1 S1 F1 HM Hl G1 N1 C1. have [V2 [e2 [Y1 [_ Y2]]]] := md_bt_main W2 S2 F2 HM Hl G2 N2 C2. rewrite E1 in X1. case: X1 => _ ->. rewrite E2 in Y1. by case: Y1 => _ ->.
      - exists (@risk_parity n). split; first by move=> S u u' HSp; exact: (parity_unique (proj1 G1) HSp).
        have [V1 [e1 [X1 [_ X2]]]] := rp_bt_main W1 S1 F1 G1 N1 C1. have [V2 [e2 [Y1 [_ Y2]]]] := rp_bt_main W2 S2 F2 G2 N2 C2. rewrite E1 in X1. case: X1 => _ ->. rewrite E2 in Y1. by case: Y1 => _ ->.
    exact: (look_gen HP R1 R2 C1 Hc1 Hc2 Hn1 Hn2 Hd1 Hd2 Hj1 Hj2 HS).
  Qed.
End Look.
