(** * Concrete cases for C145: two assets. *)
From Coq Require Import Reals ZArith String List Lia Lra Psatz.
Set Warnings "-notation-overridden,-ambiguous-paths".
From mathcomp Require Import all_ssreflect all_algebra.
From Verif Require Import RStruct MatR Num Py Combination Trader SpecTrader TraderMain TraderFinal PropTrader TraderEx PropTraderLip.
Set Implicit Arguments.
Unset Strict Implicit.
Unset Printing Implicit Defensive.
Import GRing.Theory.
Local Open Scope ring_scope.
Delimit Scope R_scope with re.
Delimit Scope Z_scope with z.

(** Limit L = 1; covariances diag(1, 1) and diag(1, 11/10), e = 1/10, lam = 1.  The weights are (1/2, 1/2) and (11/21, 10/21);
    the bound is 2/100, the squared distance 1/882. *)
Definition lim1 : limits := mkLimits (Some 1%re) None None.
Lemma lim1_ok a b : (0 <= a)%re -> (0 <= b)%re -> (a + b <= 1)%re -> within lim1 (v2 a b).
Proof. move=> Ha Hb H. split=> //= c [<-]. rewrite sum2 !mxE /=. rewrite !Rabs_pos_eq //. Qed.
Lemma D2_apart a b a' b' e : (0 <= e)%re -> (Rabs (a - a') <= e)%re -> (Rabs (b - b') <= e)%re ->
  forall i j, (Rabs (D2 a b i j - D2 a' b' i j) <= e)%re.
Proof. move=> He Ha Hb i j. rewrite !mxE. case: eqP => _; last by rewrite Rminus_diag_eq // Rabs_R0. by case: ifP. Qed.
Lemma lam1 b : (1 <= b)%re -> forall x : 'cV[R]_2, (1 * (\sum_i x i 0 * x i 0)%R <= qf (D2 1 b) x)%re.
Proof. move=> Hb x. rewrite qf_D2 sum2. change (x i0 0%R) with (x i0 ord0). change (x i1 0%R) with (x i1 ord0). move: (x i0 ord0) (x i1 ord0) => p q. toR. nra. Qed.
Example C145_nonvacuous :
  spd (D2 1 1) /\ spd (D2 1 (11 / 10)) /\ (forall i j, (Rabs (D2 1 1 i j - D2 1 (11 / 10)%re i j) <= 1 / 10)%re) /\
  minimiser (vol (D2 1 1)) (portfolio lim1) (v2 (/ 2) (/ 2)) /\ minimiser (vol (D2 1 (11 / 10))) (portfolio lim1) (v2 (11 / 21) (10 / 21)) /\
  (forall x : 'cV[R]_2, (1 * (\sum_i x i 0 * x i 0)%R <= qf (D2 1 1) x)%re) /\
  (qf (D2 1 1) (v2 (/ 2) (/ 2)) < qf (D2 1 1) (v2 (11 / 21) (10 / 21)) <= qf (D2 1 1) (v2 (/ 2) (/ 2)) + 2 * (1 / 10) * (1 * 1))%re.
Proof.
  have S1 : spd (D2 1 1) by apply: spd_D2; lra. have S2 : spd (D2 1 (11 / 10)) by apply: spd_D2; lra.
  have Ha : forall i j, (Rabs (D2 1 1 i j - D2 1 (11 / 10)%re i j) <= 1 / 10)%re.
    apply: D2_apart; [lra| |]; apply: Rabs_le; lra.
  have M1 : minimiser (vol (D2 1 1)) (portfolio lim1) (v2 (/ 2) (/ 2)).
    have := @min2 lim1 1 1 ltac:(lra) ltac:(lra). rewrite half_11. apply. apply: lim1_ok; lra.
  have M2 : minimiser (vol (D2 1 (11 / 10))) (portfolio lim1) (v2 (11 / 21) (10 / 21)).
    have := @min2 lim1 1 (11 / 10) ltac:(lra) ltac:(lra).
    have -> : v2 (11 / 10 / (1 + 11 / 10)) (1 / (1 + 11 / 10)) = v2 (11 / 21) (10 / 21) by congr v2; field.
    apply. apply: lim1_ok; lra.
  do 6 split=> //; first by apply: lam1; lra.
  split; first by rewrite !qf_D2 !mxE /=; lra.
  exact: proj2 (@C145_regret 2 lim1 _ _ (1 / 10)%re 1%re _ _ S1 S2 ltac:(lra) Ha erefl M1 M2).
Qed.
(** Two traders with those covariances on day 1; the hypotheses of C145_backtests are met, and both backtests succeed. *)
Definition run1 (T : trader 2) := backtest (@exact_solver 2) (fresh_world 2) T (args MinRisk lim1).
Lemma run1_ok (T : trader 2) b : (0 < b)%re -> trader_ok T -> t_times T = [:: 1%z] -> t_Sigmas T = [:: D2 1 b] ->
  exists W1 T1 w, run1 T = (W1, T1, None) /\ t_ws T1 = Some [:: Some (w, [::])].
Proof.
  move=> Hb HT Et ES. have [So Sf] := exact_solver_ok 2. have [Hwf Hco] := fresh_ok.
  have := C69_min_risk (a := args MinRisk lim1) So HT Hwf erefl erefl erefl. have := @C69_solver_error 2 (@exact_solver 2) (fresh_world 2) T (args MinRisk lim1) Sf.
  rewrite /run1. case: (backtest _ _ _ _) => [[W1 T1] e] /= He [//|[-> [ws [ob [Ews [_ [Es H]]]]]]]. rewrite Et in Es H.
  have P0 : portfolio lim1 (v2 (/ 2) (/ 2)).
    split; last by apply: lim1_ok; lra. rewrite sum2 !mxE /=. toR. field.
  case: H => [[_ [_ [_ H]]]|[[C|C] _]]; [|by case: (C (Hco 0%N))|by case: C; exists (v2 (/ 2) (/ 2))].
  have [w [E _]] := H 0%N erefl. case: ws Ews Es E {H} => [|x [|y ws]] //= Ews _ E. exists W1, T1, w. by rewrite Ews E.
Qed.
Definition trader1 (b : R) := new_trader ([:: 1%z], [:: "a"%string; "b"%string], [:: v2 0 0]) [:: (1%z, D2 1 b)] None false.
Lemma trader1_ok b : (0 < b)%re -> exists T, trader1 b = Ok T /\ trader_ok T /\ t_times T = [:: 1%z] /\ t_Sigmas T = [:: D2 1 b].
Proof.
  move=> Hb. have [||||//|T [H1 [H2 [H3 [H4 [H5 H6]]]]]] := @C75_constructor 2 [:: 1%z] [:: "a"%string; "b"%string] [:: v2 0 0] [:: (1%z, D2 1 b)] None => //.
  - move=> S. rewrite !inE => /eqP ->; apply: spd_D2; lra.
  - by exists T.
Qed.
Example C145_backtests_nonvacuous : exists (T T' : trader 2) W1 T1 W2 T2 w v,
  trader1 1%re = Ok T /\ trader1 (11 / 10)%re = Ok T' /\ run1 T = (W1, T1, None) /\ run1 T' = (W2, T2, None) /\
  t_ws T1 = Some [:: Some (w, [::])] /\ t_ws T2 = Some [:: Some (v, [::])] /\
  (qf (D2 1 1) w <= qf (D2 1 1) v <= qf (D2 1 1) w + 2 * (1 / 10) * (1 * 1))%re /\
  ((\sum_i (v i 0 - w i 0) * (v i 0 - w i 0))%R <= INR 2 * ((1 / 10 * 1 / 1) * (1 / 10 * 1 / 1)))%re.
Proof.
  have [T [C [HT [Et ES]]]] := @trader1_ok 1%re ltac:(lra). have [T' [C' [HT' [Et' ES']]]] := @trader1_ok (11 / 10)%re ltac:(lra).
  have [W1 [T1 [w [E1 Ew]]]] := @run1_ok _ 1%re ltac:(lra) HT Et ES. have [W2 [T2 [v [E2 Ev]]]] := @run1_ok _ (11 / 10)%re ltac:(lra) HT' Et' ES'.
  exists T, T', W1, T1, W2, T2, w, v. do 6 split=> //.
  have [So Sf] := exact_solver_ok 2. have [Hwf Hco] := fresh_ok.
  have := @C145_backtests 2 _ _ _ _ T T' (args MinRisk lim1) (args MinRisk lim1) 1%re (1 / 10)%re W1 T1 W2 T2 _ _ So So HT HT' Hwf Hwf erefl erefl erefl erefl erefl erefl erefl erefl ltac:(lra) E1 E2 Ew Ev 0%N w v [::] [::].
  rewrite Et Et' ES ES' /= => /(_ erefl erefl erefl erefl). case.
    apply: D2_apart; [lra| |]; apply: Rabs_le; lra.
  move=> H1 H2. split; first exact: H1. apply: (H2 1%re); first lra. apply: lam1; lra.
Qed.
