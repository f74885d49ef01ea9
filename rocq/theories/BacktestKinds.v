(** * Proofs about portfolio_backtests.py: the five strategies. *)
From Coq Require Import Reals ZArith String List Lia Lra Classical.
Set Warnings "-notation-overridden,-ambiguous-paths".
From mathcomp Require Import all_ssreflect all_algebra zify.
From Verif Require Import RStruct MatR Num Py Spec ListFacts Combination Trader SpecTrader TraderOpt TraderBt TraderBt2 TraderMain TraderHist TraderFinal Backtests SpecBt BacktestProps BacktestMain.
Set Implicit Arguments.
Unset Strict Implicit.
Unset Printing Implicit Defensive.
Import GRing.Theory.
Local Open Scope ring_scope.
Delimit Scope R_scope with re.
Delimit Scope Z_scope with z.

Section Kinds.
  Context (n : nat).
  Notation vec := 'cV[R]_n.
  Implicit Types (W : world n) (T : trader n) (B : pbt n).
  Lemma lt_of_nth A (l : seq A) j t : List.nth_error l j = Some t -> (j < size l)%N.
  Proof. move=> H. apply/ltP/List.nth_error_Some. by rewrite H. Qed.

  Lemma eq_main (solve : solver_t n) W B : good_frame (b_returns B) -> good_names B -> all_covered B ->
    exists d, run_backtest solve W B (KEqWeighted n) = (W, Ok d) /\ results B d (fun _ _ _ => plain (fun u => forall i, u i ord0 = (/ INR n)%re)).
  Proof.
    move=> Hf Hn Hc. have [|W' [d [E [EW H]]]] := @loop_ok n solve B (KEqWeighted n) (fun W' => W' = W) (fun _ _ _ => plain (fun u => forall i, u i ord0 = (/ INR n)%re)) Hf Hn (fun i Sg Hi => conj (Hc i Sg Hi) I) _ W erefl; last by exists d; rewrite EW in E.
    move=> i Sg W1 T _ -> _ HT _. exists W. do 2 eexists. split; first by reflexivity. split=> //. split; first by reflexivity. split; first by rewrite size_map.
    move=> j t Hj. rewrite /= (nth_map t) ?(lt_of_nth Hj) //. eexists. split; first by reflexivity. by move=> i0; rewrite mxE.
  Qed.

  Lemma min_main (solve : solver_t n) W B l : solve_ok solve -> (forall f P, solve f P <> Failed n) -> well_formed W -> consistent W 0 ->
    (exists w : vec, portfolio l w) -> good_frame (b_returns B) -> good_names B -> all_covered B ->
    exists W' d, run_backtest solve W B (KMinRisk n l) = (W', Ok d) /\ (well_formed W' /\ consistent W' 0) /\
      results B d (fun _ _ S => plain (minimiser (vol S) (portfolio l))).
  Proof.
    move=> Hso Hnf HW HWc Hl Hf Hn Hc.
    apply: (@loop_ok n solve B (KMinRisk n l) (fun W => well_formed W /\ consistent W 0) _ Hf Hn (fun i Sg Hi => conj (Hc i Sg Hi) I)); last by split.
    move=> i Sg W1 T _ [HW1 HW1c] _ HT _. have := min_risk_main Hso HT HW1 (a := args_of (KMinRisk n l)) erefl erefl erefl.
    have Hno := @no_solver_error n solve W1 T (args_of (KMinRisk n l)) Hnf. have Hg := backtest_grows solve W1 T (args_of (KMinRisk n l)).
    have Hk := @min_risk_consistent n solve W1 T (args_of (KMinRisk n l)) (conj erefl erefl) HT erefl HW1.
    case E : (backtest _ _ _ _) Hno Hg Hk => [[W2 T2] e] /= Hno Hg Hk. case=> [He|[-> [ws [ob [Ews [_ [Hs H]]]]]]]; first by rewrite He in Hno.
    exists W2, T2, ws. split=> //. split; first by split; [exact: grows_wf HW1 Hg|apply/Hk]. split=> //. split=> // j t Hj.
    case: H => [[_ [_ [_ H]]]|[[H|H] _]] //. have [u [Hu1 [Hu2 _]]] := H j (lt_of_nth Hj). by exists u.
  Qed.

  Lemma md_bt_main (solve : solver_t n) W B l M : solve_ok solve -> (forall f P, solve f P <> Failed n) ->
    upper_bound l = Some M -> (exists w : vec, long_cap M w) -> good_frame (b_returns B) -> good_names B -> all_covered B ->
    exists W' d, run_backtest solve W B (KMaxDiverse n l) = (W', Ok d) /\ w_lists W' = w_lists W /\
      results B d (fun _ _ S => plain (fun u => long_cap M u /\ forall u', long_cap M u' -> Rle (div_ratio S u') (div_ratio S u))).
  Proof.
    move=> Hso Hnf HM Hl Hf Hn Hc.
    apply: (@loop_ok n solve B (KMaxDiverse n l) (fun W' => w_lists W' = w_lists W) _ Hf Hn (fun i Sg Hi => conj (Hc i Sg Hi) I)) => //.
    move=> i Sg W1 T _ HW1 _ HT _. have := md_main W1 Hso HT (a := args_of (KMaxDiverse n l)) erefl erefl HM.
    have Hno := @no_solver_error n solve W1 T (args_of (KMaxDiverse n l)) Hnf.
    case E : (backtest _ _ _ _) Hno => [[W2 T2] e] /= Hno [Hw [He|[[_ H]|[-> [ws [Ews [Hs H]]]]]]]; [by rewrite He in Hno|by case: H|].
    exists W2, T2, ws. split=> //. split; first by rewrite Hw. split=> //. split=> // j t Hj. exact: H (lt_of_nth Hj).
  Qed.

  Lemma rp_bt_main (solve : solver_t n) W B : solve_ok solve -> (forall f P, solve f P <> Failed n) -> good_frame (b_returns B) -> good_names B -> all_covered B ->
    exists W' d, run_backtest solve W B (KRiskParity n) = (W', Ok d) /\ w_lists W' = w_lists W /\
      results B d (fun _ _ S => plain (risk_parity S)).
  Proof.
    move=> Hso Hnf Hf Hn Hc.
    apply: (@loop_ok n solve B (KRiskParity n) (fun W' => w_lists W' = w_lists W) _ Hf Hn (fun i Sg Hi => conj (Hc i Sg Hi) I)) => //.
    move=> i Sg W1 T _ HW1 _ HT _. have := rp_main W1 (proj1 Hf) Hso HT (a := args_of (KRiskParity n)) erefl erefl.
    have Hno := @no_solver_error n solve W1 T (args_of (KRiskParity n)) Hnf.
    case E : (backtest _ _ _ _) Hno => [[W2 T2] e] /= Hno [Hw [He|[-> [ws [Ews [Hs H]]]]]]; first by rewrite He in Hno.
    exists W2, T2, ws. split=> //. split; first by rewrite Hw. split=> //. split=> // j t Hj. have [w [H1 [H2 _]]] := H j (lt_of_nth Hj). by exists w.
  Qed.

  (** A mean-variance backtest leaves a usable list behind if its first day has a feasible portfolio. *)
  Lemma mv_keeps (solve : solver_t n) W T a sd rh W' T' : trader_ok T -> well_formed W -> a_type a = MeanVariance -> a_sigma_des a = Some sd -> t_rhats T = Some rh ->
    consistent W (a_cons a) -> (exists u, mv_portfolio (a_limits a) (nth 0 (t_Sigmas T) 0) (sd * a_adjust a)%re u) ->
    backtest solve W T a = (W', T', None) -> consistent W' (a_cons a).
  Proof.
    move=> HT HW Hty Hsd Hrh [v Hv] [u Hu]. rewrite /backtest Hty. set X := match a_rhos a with Some _ => _ | None => _ end. case: X => [rhos|] //.
    have HsL := size_L HT. have [_ [_ [Hpos [/(_ _ Hrh) Hsr _]]]] := HT. have [HL HS] := day_L 0 HT Hpos.
    rewrite /bt_mean_variance Hsd. change (t_rhats (set_call MeanVariance (a_adjust a) (a_speedup a) T)) with (t_rhats T). rewrite Hrh.
    change (t_L_inv (set_call MeanVariance (a_adjust a) (a_speedup a) T)) with (t_L_inv T). set x := w_next W.
    case EL: (t_L_inv T) => [|L0 Ls]; first by rewrite EL /= in HsL; rewrite -HsL in Hpos. rewrite EL /= in HL.
    set rr := (if rhos is Some r then r else _). case Er: rh => [|r0 rs] //. case: (rr) => [|q0 qs] //. case: ifP => // _. set e := (if isSome rhos then _ else _).
    case: (mapM _ _) => [sols|] //. case: (np_array _) => [sols'|] //. case=> <- _.
    have He : env_below x (w_env W) e /\ p_mat e x.+1 = L0.
      have H0 : env_below x (w_env W) (set_vec (set_mat (w_env W) x.+1 L0) x.+2 r0) by apply: (env_trans (e2 := set_mat (w_env W) x.+1 L0)); [apply: env_mat; lia|apply: env_vec; lia].
      rewrite /e. case: (isSome rhos); split; rewrite /= ?eqxx //. apply: env_trans H0 _. apply: env_vec; lia.
    case: He => He HeL. exists (upd v x u). rewrite /= eqxx. apply/all_hold_cat. split.
    - apply: (all_hold_below (x := x) _ He _ Hv); [by move=> c; exact: HW|exact: upd_below].
    - apply/(@own_mv n (a_limits a) x e _ (nth 0 (t_Sigmas T) 0)); last by rewrite upd_same. move=> w. rewrite HeL. exact: L_inv_spec.
  Qed.
  Lemma mv_bt_main (solve : solver_t n) W B l sd rhos : solve_ok solve -> (forall f P, solve f P <> Failed n) -> well_formed W -> consistent W 0 ->
    good_frame (b_returns B) -> good_names B -> all_covered B ->
    (forall i Sg, List.nth_error (b_covs B) i = Some Sg -> exists m, mean_of B i = Some m /\ means_cover (b_returns B) m (b_start B) (b_end B)) ->
    (forall i Sg t r S, List.nth_error (b_covs B) i = Some Sg -> traded (b_returns B) (b_start B) (b_end B) t r -> dict_get Z.eqb Sg t = Some S -> exists u, mv_portfolio l S sd u) ->
    (forall t r, traded (b_returns B) (b_start B) (b_end B) t r -> exists rho, rho_of rhos t = Some rho /\ forall i, Rle 0 (rho i ord0)) ->
    exists W' d, run_backtest solve W B (KMeanVariance l (Some sd) rhos) = (W', Ok d) /\ (well_formed W' /\ consistent W' 0) /\
      results B d (fun i t S w => exists m r rho u, mean_of B i = Some m /\ dict_get Z.eqb (zip m.1.1 m.2) t = Some r /\ rho_of rhos t = Some rho /\
        w = Some (u.1, [:: u.2]) /\ minimiser (fun u => (- mv_value r rho u)%re) (mv_portfolio l S sd) u).
  Proof.
    move=> Hso Hnf HW HWc Hf Hn Hc Hm Hfe Hrho.
    apply: (@loop_ok n solve B (KMeanVariance l (Some sd) rhos) (fun W => well_formed W /\ consistent W 0) _ Hf Hn (fun i Sg Hi => conj (Hc i Sg Hi) (Hm i Sg Hi))); last by split.
    move=> i Sg W1 T Hi [HW1 HW1c] HcT HT [m [rh [Em [Erh Hrh]]]]. set a := args_of _.
    have [C1 [C2 [C3 [C4 C5]]]] := HcT.
    have Hday j t : List.nth_error (t_times T) j = Some t -> (exists r, traded (b_returns B) (b_start B) (b_end B) t r) /\ dict_get Z.eqb Sg t = Some (nth 0 (t_Sigmas T) j).
      move=> Hj. have Hjs := lt_of_nth Hj. split.
      - exists (nth 0 (t_returns T) j). apply/C4/In_zip. exists j. split=> //. apply: nth_error_nth. by rewrite C2.
      - apply: C5. apply/In_zip. exists j. split=> //. apply: nth_error_nth. by rewrite C3.
    have Eadj : (sd * a_adjust a)%re = sd by rewrite /a /=; ring.
    pose rr : seq vec := [seq odflt 0 (rho_of rhos t) | t <- t_times T].
    have Hrr j t : List.nth_error (t_times T) j = Some t -> rho_of rhos t = Some (nth 0 rr j) /\ forall i, Rle 0 (nth 0 rr j i ord0).
      move=> Hj. have [[r /Hrho [rho [E1 E2]]] _] := Hday _ _ Hj. have -> : nth 0 rr j = rho; last by [].
      rewrite /rr (nth_map t) ?(lt_of_nth Hj) //. have -> : nth t (t_times T) j = t; last by rewrite E1. have := Hj. rewrite (nth_error_nth t (lt_of_nth Hj)). by case.
    have := @mv_main n solve W1 T a sd rh rr Hso HT HW1 erefl erefl Erh. match goal with |- (?M -> _) -> _ => assert (Hmatch : M) end.
      rewrite /a /=. case: (rhos) @rr Hrr => [d|] rr Hrr //. split; last first.
        move=> r /(nthP 0) [j Hj <-]. rewrite size_map in Hj. case Et : (t_times T) => [|t0 ts]; first by rewrite Et in Hj.
        by have [] := Hrr _ _ (nth_error_nth t0 Hj).
      rewrite (ListFacts.mapM_ok _ (fun t => odflt 0 (dict_get Z.eqb d t))) // => t Ht. have [j Hj] := List.In_nth_error _ _ Ht. have [E0 _] := Hrr _ _ Hj. rewrite /rho_of in E0. by rewrite E0.
    move=> /(_ Hmatch).
    have Hfeas j : (j < size (t_times T))%N -> exists u : vec * R, mv_portfolio (a_limits a) (nth 0 (t_Sigmas T) j) (sd * a_adjust a)%re u.
      rewrite Eadj. case Et : (t_times T) => [|t0 ts] //. rewrite -Et => Hj. have Hj' := nth_error_nth t0 Hj. have [[r Hr] HS] := Hday _ _ Hj'. exact: Hfe Hi Hr HS.
    have Hno := @no_solver_error n solve W1 T a Hnf. have Hg := backtest_grows solve W1 T a.
    have Hk := @mv_keeps solve W1 T a sd rh _ _ HT HW1 erefl erefl Erh HW1c (Hfeas 0%N (proj1 (proj2 (proj2 HT)))).
    case E : (backtest _ _ _ _) Hno Hg => [[W2 T2] e] /= Hno Hg. case=> [He|[[_ [_ [_ [j [Hj Hn']]]]]|[He [ws [ob [Ews [_ [Hs H]]]]]]]]; [by rewrite He in Hno|by case: Hn'; exact: Hfeas|].
    exists W2, T2, ws. rewrite He in E *. split=> //. split; first by split; [exact: grows_wf HW1 Hg|exact: Hk E]. split=> //. split=> // j t Hj.
    have Hjs := lt_of_nth Hj. case: H => [[_ [_ H]]|H]; last first. have [_ [H'|H']] := H _ Hjs; by [case: H'|case: H'; exact: Hfeas].
    have [u [U1 [U2 _]]] := H _ Hjs. have [r [R1 R2]] := Hrh _ _ Hj. exists m, r, (nth 0 rr j), u. split=> //. split=> //. split; first by have [] := Hrr _ _ Hj.
    split=> //. rewrite R2 Eadj in U2. exact: U2.
  Qed.
End Kinds.
