(** * Concrete cases for C148: two assets, one day, expected returns 1 and 0, identity covariance; target risks 1, 3 and 2. *)
From Coq Require Import Reals ZArith String List Lia Lra Psatz.
Set Warnings "-notation-overridden,-ambiguous-paths".
From mathcomp Require Import all_ssreflect all_algebra.
From Verif Require Import RStruct MatR Num Py Combination Trader SpecTrader SpecFrontier TraderMain TraderFinal PropTrader TraderEx TraderLipEx PropFrontier.
Set Implicit Arguments.
Unset Strict Implicit.
Unset Printing Implicit Defensive.
Import GRing.Theory.
Local Open Scope ring_scope.
Delimit Scope R_scope with re.
Delimit Scope Z_scope with z.

Definition fr_trader := new_trader ([:: 1%z], [:: "a"%string; "b"%string], [:: v2 0 0]) [:: (1%z, D2 1 1)] (Some ([:: 1%z], [:: "a"%string; "b"%string], [:: v2 1 0])) false.
Lemma fr_trader_ok : exists T, fr_trader = Ok T /\ trader_ok T /\ t_times T = [:: 1%z] /\ t_Sigmas T = [:: D2 1 1] /\ t_rhats T = Some [:: v2 1 0].
Proof.
  have [||||f [<-] //|T [H1 [H2 [H3 [H4 [H5 [H6 _]]]]]]] := @C75_constructor 2 [:: 1%z] [:: "a"%string; "b"%string] [:: v2 0 0] [:: (1%z, D2 1 1)] (Some ([:: 1%z], [:: "a"%string; "b"%string], [:: v2 1 0])) => //.
  - move=> S. rewrite !inE => /eqP ->; apply: spd_D2; lra.
  - by exists T.
Qed.
Definition mv_args (sd : R) (l : limits) : bt_args 2 := mkArgs MeanVariance 0 (Some sd) 1 l false (Some 3%re) None.
Lemma cash_ok l (S : 'M[R]_2) b : within l (0 : 'cV[R]_2) -> (0 <= b)%re -> mv_portfolio l S b (0, 1).
Proof. move=> Hl Hb. split; first by rewrite big1 ?add0r // => i _; rewrite mxE. split=> //. rewrite /vol /qf !mulmx0 mxE sqrt_0. lra. Qed.
Lemma within0 : within lim1 (0 : 'cV[R]_2).
Proof. split=> //= b [<-]. rewrite big1; first by toR; lra. move=> i _. by rewrite mxE Rabs_R0. Qed.
Lemma mv_returns T sd : trader_ok T -> t_times T = [:: 1%z] -> t_rhats T = Some [:: v2 1 0] -> (0 <= sd)%re ->
  exists W1 T1 ws ob, mv_call T lim1 1%re (@exact_solver 2) (fresh_world 2) (mv_args sd lim1) sd W1 T1 /\ t_ws T1 = Some ws /\ t_obj T1 = Some ob /\ nth None ws 0 <> None.
Proof.
  move=> HT Et Er Hsd. have [So Sf] := exact_solver_ok 2. have [Hwf Hco] := fresh_ok.
  have := @C70_mean_variance 2 (@exact_solver 2) (fresh_world 2) T (mv_args sd lim1) sd _ [seq 0 | _ <- t_times T] So HT Hwf erefl erefl Er erefl.
  have := @C69_solver_error 2 (@exact_solver 2) (fresh_world 2) T (mv_args sd lim1) Sf.
  have Hf (S : 'M[R]_2) : mv_portfolio lim1 S (sd * 1)%re (0, 1) by apply: cash_ok; [exact: within0|lra].
  rewrite /mv_call. case: (backtest _ _ _ _) => [[W1 T1] e] /= He.
  case=> [//|[[_ [_ [_ [t [Ht C]]]]]|[-> [ws [ob [Ew [Eo [_ H]]]]]]]]; first by case: C; exists (0, 1); exact: Hf.
  exists W1, T1, ws, ob. do 3 (split; first by repeat split). have Ht : (0 < size (t_times T))%N by rewrite Et.
  case: H => [[_ [_ H]]|H]; first by have [u [-> _]] := H 0%N Ht.
  have [_ [C|C]] := H 0%N Ht; [by case: (C (Hco 0%N))|by case: C; exists (0, 1); exact: Hf].
Qed.
Example C148_nonvacuous : exists T W1 T1 W2 T2 W3 T3 ob1 ob2 ob3, fr_trader = Ok T /\
  mv_call T lim1 1%re (@exact_solver 2) (fresh_world 2) (mv_args 1 lim1) 1 W1 T1 /\ mv_call T lim1 1%re (@exact_solver 2) (fresh_world 2) (mv_args 3 lim1) 3 W2 T2 /\
  mv_call T lim1 1%re (@exact_solver 2) (fresh_world 2) (mv_args ((1 - / 2) * 1 + / 2 * 3)%re lim1) ((1 - / 2) * 1 + / 2 * 3)%re W3 T3 /\
  t_obj T1 = Some ob1 /\ t_obj T2 = Some ob2 /\ t_obj T3 = Some ob3 /\ ((1 - / 2) * nth R0 ob1 0 + / 2 * nth R0 ob2 0 <= nth R0 ob3 0)%re.
Proof.
  have [T [E [HT [Et [ES Er]]]]] := fr_trader_ok.
  have [W1 [T1 [ws1 [ob1 [C1 [E1 [O1 N1]]]]]]] := @mv_returns T 1%re HT Et Er ltac:(lra). have [W2 [T2 [ws2 [ob2 [C2 [E2 [O2 N2]]]]]]] := @mv_returns T 3%re HT Et Er ltac:(lra).
  have [W3 [T3 [ws3 [ob3 [C3 [E3 [O3 N3]]]]]]] := @mv_returns T ((1 - / 2) * 1 + / 2 * 3)%re HT Et Er ltac:(lra).
  exists T, W1, T1, W2, T2, W3, T3, ob1, ob2, ob3. do 7 split=> //.
  have Ht : (0 <= / 2 <= 1)%re by lra.
  have [ws [ob [_ [Eo H]]]] := C148_backtests HT Er Ht C1 C2 C3 E1 E2 O1 O2.
  move: Eo. rewrite O3 => -[Eo]. rewrite Eo. have H0 : (0 < size (t_times T))%N by rewrite Et.
  exact: (H 0%N H0 N1 N2).2.
Qed.
