(** * Concrete cases for C147: two assets, exchanged, and a covariance in other units. *)
From Coq Require Import Reals ZArith String List Lia Lra Psatz.
Set Warnings "-notation-overridden,-ambiguous-paths".
From mathcomp Require Import all_ssreflect all_algebra.
From Verif Require Import RStruct MatR Num Py Combination Trader SpecTrader TraderMain TraderFinal PropTrader TraderEx TraderLipEx PropTraderRelist.
Set Implicit Arguments.
Unset Strict Implicit.
Unset Printing Implicit Defensive.
Import GRing.Theory.
Local Open Scope ring_scope.
Delimit Scope R_scope with re.
Delimit Scope Z_scope with z.

Definition swap2 (i : 'I_2) : 'I_2 := rev_ord i.
Lemma swap2_bij : bijective swap2. Proof. exists swap2; exact: rev_ordK. Qed.
(** diag(1, 4) against diag(12, 3): assets exchanged, unit 3. *)
Definition trader_ab (a b : R) := new_trader ([:: 1%z], [:: "a"%string; "b"%string], [:: v2 0 0]) [:: (1%z, D2 a b)] None false.
Lemma trader_ab_ok a b : (0 < a)%re -> (0 < b)%re -> exists T, trader_ab a b = Ok T /\ trader_ok T /\ t_times T = [:: 1%z] /\ t_Sigmas T = [:: D2 a b].
Proof.
  move=> Ha Hb. have [||||//|T [H1 [H2 [H3 [H4 [H5 H6]]]]]] := @C75_constructor 2 [:: 1%z] [:: "a"%string; "b"%string] [:: v2 0 0] [:: (1%z, D2 a b)] None => //.
  - move=> S. rewrite !inE => /eqP ->; exact: spd_D2.
  - by exists T.
Qed.
Lemma swapped : forall i j, D2 12 3 i j = (3 * D2 1 4 (swap2 i) (swap2 j))%re.
Proof.
  move=> i j. rewrite !mxE /swap2. rewrite (inj_eq rev_ord_inj). case: eqP => _; last by rewrite Rmult_0_r.
  case: i => [[|[|i]] Hi] //=; toR; lra.
Qed.
Section Runs.
  Variable T : trader 2.
  Hypothesis HT : trader_ok T. Hypothesis Et : t_times T = [:: 1%z].
  Lemma run_kind_ok k l : k = MinRisk \/ k = RiskParity -> (exists w : 'cV[R]_2, portfolio l w) -> exists W1 T1, backtest (@exact_solver 2) (fresh_world 2) T (args k l) = (W1, T1, None).
  Proof.
    move=> Hk P. have [So Sf] := exact_solver_ok 2. have [Hwf Hco] := fresh_ok.
    have := @C69_solver_error 2 (@exact_solver 2) (fresh_world 2) T (args k l) Sf. case: Hk => ->.
    - have := C69_min_risk (a := args MinRisk l) So HT Hwf erefl erefl erefl. case: (backtest _ _ _ _) => [[W1 T1] e] /= H He. case: H => [//|[-> _]]. by exists W1, T1.
    - have := C72_risk_parity (n := 2) (fresh_world 2) (a := args RiskParity l) isT So HT erefl erefl. case: (backtest _ _ _ _) => [[W1 T1] e] /= [_ H] He. case: H => [//|[-> _]]. by exists W1, T1.
  Qed.
End Runs.
(** Both runs return and the weights are exchanged. *)
Example C147_nonvacuous : forall k, k = MinRisk \/ k = RiskParity -> exists (T T' : trader 2) W1 T1 W2 T2,
  trader_ab 1 4 = Ok T /\ trader_ab 12 3 = Ok T' /\
  backtest (@exact_solver 2) (fresh_world 2) T (args k lim1) = (W1, T1, None) /\ backtest (@exact_solver 2) (fresh_world 2) T' (args k lim1) = (W2, T2, None) /\
  exists ws vs, t_ws T1 = Some ws /\ t_ws T2 = Some vs /\
    nth None vs 0 = omap (fun u : 'cV[R]_2 * seq R => (\col_i u.1 (swap2 i) 0, u.2)) (nth None ws 0).
Proof.
  move=> k Hk. have [T [C [HT [Et ES]]]] := @trader_ab_ok 1%re 4%re ltac:(lra) ltac:(lra). have [T' [C' [HT' [Et' ES']]]] := @trader_ab_ok 12%re 3%re ltac:(lra) ltac:(lra).
  have P : exists w : 'cV[R]_2, portfolio lim1 w.
    exists (v2 (/ 2) (/ 2)). split; last by apply: lim1_ok; lra. rewrite sum2 !mxE /=. toR. field.
  have [W1 [T1 E1]] := run_kind_ok HT Hk P. have [W2 [T2 E2]] := run_kind_ok HT' Hk P.
  exists T, T', W1, T1, W2, T2. do 4 split=> //.
  have [So Sf] := exact_solver_ok 2. have [Hwf Hco] := fresh_ok.
  have Es : size (t_times T') = size (t_times T) by rewrite Et Et'.
  have HE : forall t, (t < size (t_times T))%N -> exists c, (0 < c)%re /\ forall i j, nth 0 (t_Sigmas T') t i j = (c * nth 0%R (t_Sigmas T) t (swap2 i) (swap2 j))%re.
    move=> t. rewrite Et ES ES'. case: t => [|t] //= _. exists 3%re. split; [lra|exact: swapped].
  have [ws [vs [F1 [F2 H]]]] : exists ws vs, t_ws T1 = Some ws /\ t_ws T2 = Some vs /\ forall t, (t < size (t_times T))%N ->
    nth None vs t = omap (fun u : 'cV[R]_2 * seq R => (\col_i u.1 (swap2 i) 0, u.2)) (nth None ws t).
    case: Hk E1 E2 => -> E1 E2.
    - exact: (C147_min_risk swap2_bij HT HT' Es HE So So Hwf Hwf (a := args MinRisk lim1) (a' := args MinRisk lim1) erefl erefl erefl erefl erefl erefl erefl (Hco _) (Hco _) E1 E2).
    - exact: (C147_risk_parity swap2_bij HT HT' Es HE isT So So (a := args RiskParity lim1) (a' := args RiskParity lim1) erefl erefl erefl erefl E1 E2).
  exists ws, vs. split=> //. split=> //. apply: H. by rewrite Et.
Qed.
