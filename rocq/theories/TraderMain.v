(** * Construction of traders, exact solvers, and the backtest results in the form used by the properties. *)
From Coq Require Import Reals ZArith String List Lia Lra Classical ClassicalEpsilon.
Set Warnings "-notation-overridden,-ambiguous-paths".
From mathcomp Require Import all_ssreflect all_algebra.
From mathcomp.zify Require Import zify_ssreflect.
From Verif Require Import RStruct MatR Spectral Num Py Combination Trader SpecTrader TraderLists TraderOpt TraderBt TraderPort TraderParity TraderBt2 TraderHist.
Set Implicit Arguments.
Unset Strict Implicit.
Unset Printing Implicit Defensive.
Import GRing.Theory.
Local Open Scope ring_scope.
Delimit Scope R_scope with re.

(** An exact solver exists. *)
Definition exact_solver n : solver_t n := fun f P =>
  match excluded_middle_informative (exists v, minimiser f P v) with
  | left H => Solved (proj1_sig (constructive_indefinite_description _ H))
  | right _ => NotSolved n
  end.
Lemma exact_solver_ok n : solve_ok (@exact_solver n) /\ forall f P, @exact_solver n f P <> Failed n.
Proof.
  split=> f P; rewrite /exact_solver; destruct (excluded_middle_informative _) as [H|H] => //.
  exact: (proj2_sig (constructive_indefinite_description _ H)).
Qed.

Lemma seqb_ZP a b : seqb_Z a b = true <-> a = b.
Proof.
  rewrite /seqb_Z. elim: a b => [|x a IH] [|y b] //=. rewrite eqSS /= andbCA. split.
  - by case/andP => /Z.eqb_eq -> /IH ->.
  - case=> <- <-. rewrite Z.eqb_refl /=. by apply/IH.
Qed.
Lemma seqb_sP a b : seqb_s a b = true <-> a = b.
Proof.
  rewrite /seqb_s. elim: a b => [|x a IH] [|y b] //=. rewrite eqSS /= andbCA. split.
  - by case/andP => /String.eqb_eq -> /IH ->.
  - case=> <- <-. rewrite String.eqb_refl /=. by apply/IH.
Qed.
Lemma L_inv_bad n (S : 'M[R]_n) : sym S -> ~ spd S -> get_L_inv S = Raise LinAlgError.
Proof.
  move=> Hs Hn. rewrite /get_L_inv /np_inv. case: ifP => // Hu /=. have -> : chol (invmx S) = None; last by [].
  apply/chol_none; first exact: sym_inv. move=> H. apply: Hn. exact: spd_inv_iff.
Qed.

Section Main.
  Context (n : nat).
  Notation vec := 'cV[R]_n.
  Implicit Types (W : world n) (T : trader n) (a : bt_args n).

  Lemma new_trader_ok (idx : seq Z) (cols : seq string) (rows : seq vec) (Sig : seq (Z * 'M[R]_n)) (rh : option (frame n)) :
    map fst Sig = idx -> (0 < size idx)%N -> size rows = size idx -> (forall S, S \in map snd Sig -> spd S) ->
    (forall f, rh = Some f -> f.1.1 = idx /\ f.1.2 = cols /\ size f.2 = size idx) ->
    exists T, new_trader (idx, cols, rows) Sig rh false = Ok T /\ trader_ok T /\ t_times T = idx /\ t_returns T = rows /\ t_Sigmas T = map snd Sig /\
      t_rhats T = omap snd rh /\ t_diluted T = false /\ t_ws T = None /\ t_ws_diluted T = None.
  Proof.
    move=> Hk H0 Hr HS Hrh. rewrite /new_trader /=. have -> : seqb_Z idx (map fst Sig) by apply/seqb_ZP.
    have -> : (if rh is Some f then ~~ (seqb_Z idx f.1.1 && seqb_s cols f.1.2) else false) = false.
      case: rh Hrh => [f|] // /(_ _ erefl) [E1 [E2 _]]. by rewrite E1 E2 (proj2 (seqb_ZP idx idx) erefl) (proj2 (seqb_sP cols cols) erefl).
    have -> : (size idx == 0)%N = false by lia.
    have [|Ls Em] := @mapM_ok _ _ (@get_L_inv n) (map snd Sig).
      move=> i S0 Hi. have [L [E _]] := L_inv_ok (HS (nth S0 (map snd Sig) i) (mem_nth S0 Hi)). by exists L.
    rewrite /= Em /=. eexists. split; first by reflexivity. split; last by case: (rh).
    split; first by rewrite /= size_map -Hk size_map. split=> //. split=> //. split.
      by move=> r /=; case: rh Hrh => [f|] // /(_ _ erefl) [_ [_ E]] [] <-.
    by split.
  Qed.
  Lemma new_trader_bad returns (Sig : seq (Z * 'M[R]_n)) rh (S : 'M[R]_n) : (0 < size returns.1.1)%N -> returns.1.1 = map fst Sig ->
    (forall f, rh = Some f -> f.1.1 = returns.1.1 /\ f.1.2 = returns.1.2) ->
    (forall S', S' \in map snd Sig -> sym S') -> S \in map snd Sig -> ~ spd S -> new_trader returns Sig rh false = Raise LinAlgError.
  Proof.
    move=> H0 Hk Hrh Hsym Hin Hn. rewrite /new_trader. have -> : seqb_Z returns.1.1 (map fst Sig) by apply/seqb_ZP.
    have -> : (if rh is Some f then ~~ (seqb_Z returns.1.1 f.1.1 && seqb_s returns.1.2 f.1.2) else false) = false.
      case: rh Hrh => [f|] // /(_ _ erefl) [E1 E2]. by rewrite E1 E2 (proj2 (seqb_ZP _ _) erefl) (proj2 (seqb_sP _ _) erefl).
    have -> : (size returns.1.1 == 0)%N = false by lia. rewrite /=.
    have -> : mapM (@get_L_inv n) (map snd Sig) = Raise LinAlgError; last by [].
    elim: (map snd Sig) Hsym Hin => [|S' l IH] //= Hsym. rewrite in_cons.
    case: (classic (spd S')) => HS.
    - have [L [-> _]] := L_inv_ok HS. move=> /= /orP [/eqP E|Hin]; first by move: Hn; rewrite E. rewrite IH // => S2 H. by apply: Hsym; rewrite in_cons H orbT.
    - move=> _. rewrite L_inv_bad //. apply: Hsym; exact: mem_head.
  Qed.
  Lemma trader_ok_frame T T' : t_times T' = t_times T -> t_returns T' = t_returns T -> t_Sigmas T' = t_Sigmas T -> t_rhats T' = t_rhats T ->
    t_sigma_hats T' = t_sigma_hats T -> t_L_inv T' = t_L_inv T -> trader_ok T -> trader_ok T'.
  Proof. by rewrite /trader_ok => -> -> -> -> -> ->. Qed.
  Lemma returns_loop_frame T d sd rf : forall rows t, let T' := (returns_loop T t rows d sd rf).1 in
    t_times T' = t_times T /\ t_returns T' = t_returns T /\ t_Sigmas T' = t_Sigmas T /\ t_rhats T' = t_rhats T /\ t_sigma_hats T' = t_sigma_hats T /\ t_L_inv T' = t_L_inv T.
  Proof.
    move=> rows. elim: rows T => [|r rows IH] T t //=. case: (t_ws T) => [ws|] //.
    set X := (if d then _ else _). have HX : let T' := X.1 in t_times T' = t_times T /\ t_returns T' = t_returns T /\ t_Sigmas T' = t_Sigmas T /\ t_rhats T' = t_rhats T /\ t_sigma_hats T' = t_sigma_hats T /\ t_L_inv T' = t_L_inv T.
      rewrite /X. case: d {IH X} => //. case: (t_diluted T) => //. case: sd => [sd|] //. rewrite /dilute_with_cash. case: (t_diluted T) => //. case: (t_ws T) => // ws'. by case: (mapM _ _).
    case: X HX => T1 [w|ex] //= HX. case: (bind _ _) => [x|ex] //. have := IH T1 t.+1. case: (returns_loop _ _ _ _ _ _) => T2 [xs e] /=.
    move: HX => [-> [-> [-> [-> [-> ->]]]]]. by [].
  Qed.
  Lemma do_op_ok (solve : solver_t n) W T o : trader_ok T -> trader_ok (do_op solve (W, T) o).2.
  Proof.
    move=> HT. case: o => [a|d sd rf ex|sd|sd] /=.
    - have [H1 [H2 [H3 [H4 [H5 [H6 _]]]]]] := backtest_frame solve W T a. exact: (trader_ok_frame H2 H1 H3 H4 H5 H6).
    - have := returns_loop_frame T d sd rf (t_returns T) 0. rewrite /get_metrics /get_total_returns. case: (returns_loop _ _ _ _ _ _) => T' [xs e] /= [H1 [H2 [H3 [H4 [H5 H6]]]]].
      have HT' := trader_ok_frame H1 H2 H3 H4 H5 H6 HT. by case: e.
    - rewrite /dilute_with_cash. case: (t_diluted T) => //. case: (t_ws T) => // ws. by case: (mapM _ _).
    - rewrite /get_risk_adj_returns. case: (t_rets T) => // r. by rdecE H.
  Qed.
  Lemma history_ok (solve : solver_t n) ops W T : trader_ok T -> trader_ok (history solve (W, T) ops).2.
  Proof.
    elim: ops W T => [|o ops IH] W T HT //. rewrite /history /= -/(history solve (do_op solve (W, T) o) ops).
    have := do_op_ok solve W o HT. case: (do_op _ _ _) => W' T' /= HT'. exact: IH.
  Qed.

  (** ** Results of the backtests. *)
  Lemma call_ok p af sp T : trader_ok T -> trader_ok (set_call p af sp T).
  Proof. by []. Qed.
  Lemma min_risk_main (solve : solver_t n) W T a : solve_ok solve -> trader_ok T -> well_formed W -> a_type a = MinRisk -> a_speedup a = false -> a_rhos a = None ->
    let '(W', T', e) := backtest solve W T a in
    e = Some SolverError \/
    (e = None /\ exists ws ob, t_ws T' = Some ws /\ t_obj T' = Some ob /\ size ws = size (t_times T) /\
      ((consistent W (a_cons a) /\ (exists w : vec, portfolio (a_limits a) w) /\ size ob = size (t_times T) /\
        forall t, (t < size (t_times T))%N -> exists w, nth None ws t = Some (w, [::]) /\
          minimiser (vol (nth 0 (t_Sigmas T) t)) (portfolio (a_limits a)) w /\ nth 0 ob t = vol (nth 0 (t_Sigmas T) t) w) \/
       ((~ consistent W (a_cons a) \/ ~ exists w : vec, portfolio (a_limits a) w) /\ forall t, (t < size (t_times T))%N -> nth None ws t = None))).
  Proof.
    move=> Hso HT HW Hty Hsp Hr. rewrite /backtest Hr Hty.
    have Hrob : is_robust a = false by rewrite /is_robust Hty.
    have [|W' [E H]] := @bt_min_risk_cases n solve W (set_call MinRisk (a_adjust a) (a_speedup a) T) a Hso (call_ok _ _ _ HT) HW (or_introl Hty) Hsp; first by rewrite Hrob.
    case: H => [H|[ws [ob [H [Hs Hrows]]]]].
    - move: H E. case: (bt_min_risk _ _ _ _) => [[? ?] ?] /= -> _. by left.
    - rewrite H. right. split=> //. exists ws, ob. split=> //. split=> //. split=> //. move: Hrows. by rewrite /min_rows /a_kap Hrob.
  Qed.
  Lemma robust_main (solve : solver_t n) W T a k : solve_ok solve -> trader_ok T -> well_formed W -> a_type a = RobustMinRisk -> a_speedup a = false -> a_rhos a = None ->
    a_kappa a = Some k -> Rle 0 k ->
    let '(W', T', e) := backtest solve W T a in
    e = Some SolverError \/
    (e = None /\ exists ws, t_ws T' = Some ws /\ size ws = size (t_times T) /\
      ((consistent W (a_cons a) /\ (exists w : vec, portfolio (a_limits a) w) /\
        forall t, (t < size (t_times T))%N -> exists w, nth None ws t = Some (w, [::]) /\
          minimiser (robust_risk (nth 0 (t_Sigmas T) t) k (\col_i sqrt (nth 0 (t_Sigmas T) 0 i i))) (portfolio (a_limits a)) w) \/
       ((~ consistent W (a_cons a) \/ ~ exists w : vec, portfolio (a_limits a) w) /\ forall t, (t < size (t_times T))%N -> nth None ws t = None))).
  Proof.
    move=> Hso HT HW Hty Hsp Hr Hk Hk0. rewrite /backtest Hr Hty.
    have Hrob : is_robust a = true by rewrite /is_robust Hty.
    have [|W' [E H]] := @bt_min_risk_cases n solve W (set_call RobustMinRisk (a_adjust a) (a_speedup a) T) a Hso (call_ok _ _ _ HT) HW (or_intror Hty) Hsp; first by move=> _; exists k.
    have [_ [_ [Hpos _]]] := HT.
    case: H => [H|[ws [ob [H [Hs Hrows]]]]].
    - move: H E. case: (bt_min_risk _ _ _ _) => [[? ?] ?] /= -> _. by left.
    - rewrite H. right. split=> //. exists ws. split=> //. split=> //. move: Hrows. rewrite /min_rows /a_kap Hrob Hk /day_obj.
      change (t_sigma_hats (set_call RobustMinRisk (a_adjust a) (a_speedup a) T)) with (t_sigma_hats T). rewrite nth_sh //.
      case=> [[H1 [H2 [H3 H4]]]|H1]; [left|by right]. split=> //. split=> // t Ht. have [w [Hw1 [Hw2 _]]] := H4 t Ht. by exists w.
  Qed.
  Lemma mv_main (solve : solver_t n) W T a sd rh rhos : solve_ok solve -> trader_ok T -> well_formed W -> a_type a = MeanVariance ->
    a_sigma_des a = Some sd -> t_rhats T = Some rh ->
    (match a_rhos a with None => rhos = [seq 0 | _ <- t_times T]
                       | Some d => mapM (fun t => or_raise (dict_get Z.eqb d t) KeyError) (t_times T) = Ok rhos /\ forall r, r \in rhos -> forall i, Rle 0 (r i ord0) end) ->
    let feasible t := exists u : vec * R, mv_portfolio (a_limits a) (nth 0 (t_Sigmas T) t) (sd * a_adjust a)%re u in
    let '(W', T', e) := backtest solve W T a in
    e = Some SolverError \/
    (e = Some ValueError /\ consistent W (a_cons a) /\ (exists t, (t < size (t_times T))%N /\ feasible t) /\ exists t, (t < size (t_times T))%N /\ ~ feasible t) \/
    (e = None /\ exists ws ob, t_ws T' = Some ws /\ t_obj T' = Some ob /\ size ws = size (t_times T) /\
      ((consistent W (a_cons a) /\ size ob = size (t_times T) /\ forall t, (t < size (t_times T))%N -> exists u, nth None ws t = Some (u.1, [:: u.2]) /\
          minimiser (fun u => (- mv_value (nth 0%R rh t) (nth 0%R rhos t) u)%re) (mv_portfolio (a_limits a) (nth 0 (t_Sigmas T) t) (sd * a_adjust a)%re) u /\
          nth 0 ob t = mv_value (nth 0 rh t) (nth 0 rhos t) u) \/
       (forall t, (t < size (t_times T))%N -> nth None ws t = None /\ (~ consistent W (a_cons a) \/ ~ feasible t)))).
  Proof.
    move=> Hso HT HW Hty Hsd Hrh Hrhos feasible. rewrite /backtest Hty.
    set X := match a_rhos a with Some _ => _ | None => _ end.
    have [ro [-> [Hro Hat]]] : exists ro, X = Ok ro /\ (forall r, ro = Some r -> size r = size (t_times T) /\ all (@nonneg n) r) /\ forall t, (t < size (t_times T))%N -> rho_at ro t = nth 0 rhos t.
      rewrite /X. move: Hrhos. case: (a_rhos a) => [d [E Hnn]|E].
      - rewrite /=. change (t_times (set_call MeanVariance (a_adjust a) (a_speedup a) T)) with (t_times T). rewrite E /=. exists (Some rhos). split=> //. split=> //.
        move=> r [] <-. have [Hs _] := mapM_nth E. split=> //. apply/allP => q Hq. apply/nonnegP. exact: Hnn.
      - exists None. split=> //. split=> // t Ht. rewrite E /=. by clear; elim: (t_times T) t => [|? ? IH] [|t] //=.
    have [W' [E H]] := @bt_mv_cases n solve W (set_call MeanVariance (a_adjust a) (a_speedup a) T) a sd rh ro Hso (call_ok _ _ _ HT) HW Hsd Hrh Hro.
    case: H => [H|[[H1 H2]|[ws [ob [H [Hs Hrows]]]]]].
    - move: H E. case: (bt_mean_variance _ _ _ _ _) => [[? ?] ?] /= -> _. by left.
    - move: H1 E. case: (bt_mean_variance _ _ _ _ _) => [[? ?] ?] /= -> _. right; left. by split.
    - rewrite H. right; right. split=> //. exists ws, ob. split=> //. split=> //. split=> //.
      case: Hrows => [[Hc [Hso2 Hday]]|Hno]; [left|by right]. split=> //. split=> // t Ht. have [u [U1 [U2 U3]]] := Hday t Ht. exists u. rewrite -Hat //.
  Qed.
  Lemma md_main (solve : solver_t n) W T a M : solve_ok solve -> trader_ok T -> a_type a = MaxDiverse -> a_rhos a = None -> upper_bound (a_limits a) = Some M ->
    let '(W', T', e) := backtest solve W T a in
    w_lists W' = w_lists W /\
    (e = Some SolverError \/ (e = Some TypeError /\ ~ exists w : vec, long_cap M w) \/
     (e = None /\ exists ws, t_ws T' = Some ws /\ size ws = size (t_times T) /\ forall t, (t < size (t_times T))%N -> exists w, nth None ws t = Some (w, [::]) /\
        long_cap M w /\ forall w', long_cap M w' -> Rle (div_ratio (nth 0 (t_Sigmas T) t) w') (div_ratio (nth 0 (t_Sigmas T) t) w))).
  Proof.
    move=> Hso HT Hty Hr HM. rewrite /backtest Hr Hty.
    have [W' [E [EW H]]] := @bt_md_cases n solve W (set_call MaxDiverse (a_adjust a) (a_speedup a) T) a M Hso (call_ok _ _ _ HT) HM.
    case: H => [H|[[H1 H2]|[ws [H [Hs Hrows]]]]].
    - move: H E. case: (bt_max_diverse _ _ _ _) => [[? ?] ?] /= -> ->. split=> //. by left.
    - move: H1 E. case: (bt_max_diverse _ _ _ _) => [[? ?] ?] /= -> ->. split=> //. right; left. by split.
    - rewrite H. split=> //. right; right. split=> //. by exists ws.
  Qed.
  Lemma rp_main (solve : solver_t n) W T a : (0 < n)%N -> solve_ok solve -> trader_ok T -> a_type a = RiskParity -> a_rhos a = None ->
    let '(W', T', e) := backtest solve W T a in
    w_lists W' = w_lists W /\
    (e = Some SolverError \/
     (e = None /\ exists ws, t_ws T' = Some ws /\ size ws = size (t_times T) /\ forall t, (t < size (t_times T))%N -> exists w, nth None ws t = Some (w, [::]) /\
        risk_parity (nth 0 (t_Sigmas T) t) w /\ forall w', risk_parity (nth 0 (t_Sigmas T) t) w' -> w' = w)).
  Proof.
    move=> Hn Hso HT Hty Hr. rewrite /backtest Hr Hty.
    have [W' [E [EW H]]] := @bt_rp_cases n solve W (set_call RiskParity (a_adjust a) (a_speedup a) T) a Hn Hso (call_ok _ _ _ HT).
    case: H => [H|[ws [H [Hs Hrows]]]].
    - move: H E. case: (bt_risk_parity _ _ _ _) => [[? ?] ?] /= -> ->. split=> //. by left.
    - rewrite H. split=> //. right. split=> //. exists ws. split=> //. split=> // t Ht. have [w [H1 H2]] := Hrows t Ht. exists w. split=> //. split=> // w' Hw'.
      have [_ HS] := day_L 0 HT Ht. exact: (parity_unique Hn HS Hw' H2).
  Qed.
End Main.
