(** * Backtests of the maximum-diversification and risk-parity portfolios; effects of calls on the shared lists. *)
From Coq Require Import Reals ZArith String List Lia Lra Classical.
Set Warnings "-notation-overridden,-ambiguous-paths".
From mathcomp Require Import all_ssreflect all_algebra.
From mathcomp.zify Require Import zify_ssreflect.
From Verif Require Import RStruct MatR Num Py Trader SpecTrader TraderLists TraderOpt TraderBt TraderPort TraderParity.
Set Implicit Arguments.
Unset Strict Implicit.
Unset Printing Implicit Defensive.
Import GRing.Theory.
Local Open Scope ring_scope.
Delimit Scope R_scope with re.

Section Bt2.
  Context (n : nat).
  Notation vec := 'cV[R]_n.
  Implicit Types (W : world n) (T : trader n) (a : bt_args n) (e : penv n) (v : val n).

  Lemma normalized_ok (z : vec) : Rlt 0 (\sum_i z i 0)%R -> normalized z = Ok ((/ (\sum_i z i 0)%R)%re *: z, [::]).
  Proof.
    move=> H. rewrite /normalized. have Hnz : (\sum_i z i 0)%R != 0 by apply/eqP; move: H; toR; lra. rewrite Hnz RinvE //. exact/eqP.
  Qed.
  Definition rows_ok T (P : nat -> vec -> Prop) (ws : seq (wrow n)) : Prop :=
    size ws = size (t_times T) /\ forall t, (t < size (t_times T))%N -> exists w, nth None ws t = Some (w, [::]) /\ P t w.

  (** ** max_diverse *)
  Lemma own_md x e v M (S : 'M[R]_n) : p_vec e x.+2 = \col_i sqrt (S i i) ->
    all_hold [:: @c_nonneg n x; c_cap x M; c_unit x] e v <-> md_feasible S M (v x).1.
  Proof.
    move=> HE. rewrite 3!all_hold_cons /c_nonneg /c_cap /c_unit HE /md_feasible. split; first by move=> [H1 [H2 [H3 _]]].
    move=> [H1 [H2 H3]]. split=> //. split=> //. split=> //.
  Qed.
  Lemma md_worker (solve : solver_t n) T e x M t : solve_ok solve -> trader_ok T -> (t < size (t_times T))%N ->
    let e' := set_vec (set_mat e x.+1 (nth 0 (t_L_inv T) t)) x.+2 (nth 0 (t_sigma_hats T) t) in
    match worker solve (obj_risk x) [:: @c_nonneg n x; c_cap x M; c_unit x] e' x with
    | Ok (Some (u, o)) => minimiser (vol (nth 0 (t_Sigmas T) t)) (md_feasible (nth 0 (t_Sigmas T) t) M) u.1
    | Ok None => ~ exists w : vec, long_cap M w
    | Raise ex => ex = SolverError
    end.
  Proof.
    move=> Hso HT Ht e'. have [HL HS] := day_L 0 HT Ht. set S := nth 0 (t_Sigmas T) t in HL HS *.
    pose Q (u : vec * R) := md_feasible S M u.1. pose g (u : vec * R) := vol S u.1.
    set own := [:: _; _; _].
    have Hown v : all_hold own e' v <-> Q (v x).
      apply: own_md. rewrite /e' /= eqxx. exact: nth_sh.
    have Hf v : obj_risk x e' v = g (v x).
      rewrite /obj_risk /g. have -> : p_mat e' x.+1 = nth 0 (t_L_inv T) t by rewrite /e' /= eqxx. exact: L_inv_spec.
    have Hold : forall c : con n, List.In c [::] -> con_below x c by [].
    case E: (worker _ _ _ _ _) => [[[u o]|]|ex].
    - have [[H1 H2] _] := @worker_solved _ _ _ [::] own e' _ g Q Hso Hold Hown Hf _ _ E. split=> // y Hy. exact: (H2 (y, 0)).
    - move=> Hw. apply: (@worker_none _ _ _ [::] own e' _ g Q Hso Hold Hown Hf E); first by exists (fun _ => (0, 0)); exact: all_hold_nil.
      have [z [Hz1 Hz2]] := md_exists HS Hw. exists (z, 0). split=> // -[y c] Hy. exact: Hz2.
    - move: E. rewrite /worker /prob_solve. by case: (solve _ _) => //= -[].
  Qed.
  Lemma bt_md_cases (solve : solver_t n) W T a M : solve_ok solve -> trader_ok T -> upper_bound (a_limits a) = Some M ->
    exists W', (bt_max_diverse solve W T a).1.1 = W' /\ w_lists W' = w_lists W /\
    ((bt_max_diverse solve W T a).2 = Some SolverError \/
     ((bt_max_diverse solve W T a).2 = Some TypeError /\ ~ exists w : vec, long_cap M w) \/
     exists ws, bt_max_diverse solve W T a = (W', set_ws ws T, None) /\
       rows_ok T (fun t w => long_cap M w /\ forall w', long_cap M w' -> Rle (div_ratio (nth 0 (t_Sigmas T) t) w') (div_ratio (nth 0 (t_Sigmas T) t) w)) ws).
  Proof.
    move=> Hso HT HM. eexists. split; first by reflexivity.
    rewrite /bt_max_diverse HM.
    have HsL := size_L HT. have Hss := size_sh HT. have [_ [_ [Hpos _]]] := HT.
    case EL: (t_L_inv T) => [|L0 Ls]; first by rewrite EL /= in HsL; rewrite -HsL in Hpos.
    case Ew: (worker solve _ _ _ _) => [w0|ex]; last first.
      split=> //. left. move: Ew. rewrite /worker /prob_solve. by case: (solve _ _) => //= -[] <-.
    rewrite -EL. set x := w_next W.
    have Hsz' : size (zip (t_L_inv T) (t_sigma_hats T)) = size (t_times T) by rewrite size_zip HsL Hss minnn.
    have Hw t : (t < size (t_times T))%N -> nth (0, 0) (zip (t_L_inv T) (t_sigma_hats T)) t = (nth 0 (t_L_inv T) t, nth 0 (t_sigma_hats T) t).
      by move=> Ht; rewrite nth_zip ?HsL ?Hss.
    case Em: (mapM _ _) => [ws|ex]; last first.
      split=> //. have [i [Hi H]] := mapM_raise Em. rewrite Hsz' in Hi. move: (H (0, 0)). rewrite Hw //. cbn [fst snd].
      have [_ HS] := day_L 0 HT Hi.
      have := md_worker (set_vec (set_mat (w_env W) x.+1 L0) x.+2 (const_mx 1)) x M Hso HT Hi. cbv zeta.
      case: (worker _ _ _ _ _) => [[[u o]|]|ex'] /=.
      - move=> [HF _]. rewrite normalized_ok //. by have [] := md_norm HS HF.
      - move=> Hno [] <-. right; left. by split.
      - move=> -> [] <-. by left.
    have [Hsz Hn] := mapM_nth Em. rewrite Hsz' in Hsz Hn. split=> //. right; right. eexists. split; first by reflexivity.
    split; first by rewrite size_map. move=> t Ht. have := Hn t (0, 0) (0, [::]) Ht. rewrite Hw //. cbn [fst snd].
    have [_ HS] := day_L 0 HT Ht.
    have := md_worker (set_vec (set_mat (w_env W) x.+1 L0) x.+2 (const_mx 1)) x M Hso HT Ht. cbv zeta.
    case: (worker _ _ _ _ _) => [[[u o]|]|ex'] //= Hmin. have [HF _] := Hmin. have [Hs _] := md_norm HS HF.
    rewrite normalized_ok // => -[] Hx. exists ((/ (\sum_i u.1 i 0)%R)%re *: u.1). rewrite (nth_map (0, [::])) ?Hsz // -Hx. split=> //.
    exact: md_optimal.
  Qed.

  (** ** risk_parity *)
  Lemma rp_worker (solve : solver_t n) T e x t : (0 < n)%N -> solve_ok solve -> trader_ok T -> (t < size (t_times T))%N ->
    match worker solve (obj_parity x) [:: @c_positive n x] (set_mat e x.+1 (nth 0 (t_L_inv T) t)) x with
    | Ok (Some (u, o)) => minimiser (pf (nth 0 (t_Sigmas T) t)) (@ppos n) u.1
    | Ok None => False
    | Raise ex => ex = SolverError
    end.
  Proof.
    move=> Hn Hso HT Ht. have [HL HS] := day_L 0 HT Ht. set S := nth 0 (t_Sigmas T) t in HL HS *. set e' := set_mat _ _ _.
    pose Q (u : vec * R) := ppos u.1. pose g (u : vec * R) := pf S u.1.
    set own := [:: _].
    have Hown v : all_hold own e' v <-> Q (v x).
      rewrite all_hold_cons /Q /ppos. split; [by case|move=> H; split=> //; exact: all_hold_nil].
    have Hf v : obj_parity x e' v = g (v x).
      rewrite /obj_parity /g /pf. have -> : p_mat e' x.+1 = nth 0 (t_L_inv T) t by rewrite /e' /= eqxx. by rewrite (L_inv_spec _ HS HL).
    have Hold : forall c : con n, List.In c [::] -> con_below x c by [].
    case E: (worker _ _ _ _ _) => [[[u o]|]|ex].
    - have [[H1 H2] _] := @worker_solved _ _ _ [::] own e' _ g Q Hso Hold Hown Hf _ _ E. split=> // y Hy. exact: (H2 (y, 0)).
    - apply: (@worker_none _ _ _ [::] own e' _ g Q Hso Hold Hown Hf E); first by exists (fun _ => (0, 0)); exact: all_hold_nil.
      have [z [Hz1 Hz2]] := parity_exists Hn HS. exists (z, 0). split=> // -[y c] Hy. exact: Hz2.
    - move: E. rewrite /worker /prob_solve. by case: (solve _ _) => //= -[].
  Qed.
  Lemma bt_rp_cases (solve : solver_t n) W T a : (0 < n)%N -> solve_ok solve -> trader_ok T ->
    exists W', (bt_risk_parity solve W T a).1.1 = W' /\ w_lists W' = w_lists W /\
    ((bt_risk_parity solve W T a).2 = Some SolverError \/
     exists ws, bt_risk_parity solve W T a = (W', set_ws ws T, None) /\ rows_ok T (fun t w => risk_parity (nth 0 (t_Sigmas T) t) w) ws).
  Proof.
    move=> Hnn Hso HT. eexists. split; first by reflexivity.
    rewrite /bt_risk_parity.
    have HsL := size_L HT. have [_ [_ [Hpos _]]] := HT.
    case EL: (t_L_inv T) => [|L0 Ls]; first by rewrite EL /= in HsL; rewrite -HsL in Hpos.
    case Ew: (worker solve _ _ _ _) => [w0|ex]; last first.
      split=> //. left. move: Ew. rewrite /worker /prob_solve. by case: (solve _ _) => //= -[] <-.
    rewrite -EL. set x := w_next W.
    case Em: (mapM _ _) => [ws|ex]; last first.
      split=> //. have [i [Hi H]] := mapM_raise Em. rewrite HsL in Hi. move: (H 0).
      have [_ HS] := day_L 0 HT Hi.
      have := rp_worker (set_mat (w_env W) x.+1 L0) x Hnn Hso HT Hi.
      case: (worker _ _ _ _ _) => [[[u o]|]|ex'] //=.
      - move=> Hm. rewrite normalized_ok //. by have [] := parity_norm Hnn HS Hm.
      - move=> -> [] <-. by left.
    have [Hsz Hn] := mapM_nth Em. rewrite HsL in Hsz Hn. split=> //. right. eexists. split; first by reflexivity.
    split; first by rewrite size_map. move=> t Ht. have := Hn t 0 (0, [::]) Ht.
    have [_ HS] := day_L 0 HT Ht.
    have := rp_worker (set_mat (w_env W) x.+1 L0) x Hnn Hso HT Ht.
    case: (worker _ _ _ _ _) => [[[u o]|]|ex'] //= Hmin. have [Hs Hrp] := parity_norm Hnn HS Hmin.
    rewrite normalized_ok // => -[] Hx. exists ((/ (\sum_i u.1 i 0)%R)%re *: u.1). by rewrite (nth_map (0, [::])) ?Hsz // -Hx.
  Qed.

  (** ** Effects of a call on the process-wide state. *)
  Definition grows W W' (r0 : nat) : Prop := (w_next W <= w_next W')%N /\ env_below (w_next W) (w_env W) (w_env W') /\
    forall r, exists ex, w_lists W' r = w_lists W r ++ ex /\ (r <> r0 -> ex = [::]) /\ (forall c, List.In c ex -> con_below (w_next W') c).
  Lemma grows_refl W r : grows W W r.
  Proof. split=> //. split=> // q. exists [::]. by rewrite cats0. Qed.
  Lemma grows_names W k r : grows W (take_names W k) r.
  Proof. split; first exact: leq_addr. split=> // q. exists [::]. by rewrite cats0. Qed.
  Lemma grows_env W W' r e : grows W W' r -> env_below (w_next W) (w_env W) e -> grows W (with_env W' e) r.
  Proof. by move=> [H1 [H2 H3]] He; split. Qed.
  Lemma grows_extend W k r cs : (forall c, List.In c cs -> con_below (w_next W + k) c) -> grows W (extend (take_names W k) r cs) r.
  Proof.
    move=> Hc. split; first exact: leq_addr. split=> // q /=. case: eqP => [->|Hq]; first by exists cs.
    exists [::]. by rewrite cats0.
  Qed.
  Lemma below_budget cash x k : (x < k)%N -> con_below k (@c_budget n cash x).
  Proof. by move=> Hx e e' v v' _ Hv; rewrite /c_budget Hv. Qed.
  Lemma below_limits l x k : (x < k)%N -> forall c, List.In c (@limit_cons n l x) -> con_below k c.
  Proof.
    move=> Hx c. rewrite /limit_cons !in_app_iff => -[|[|]]; case: (_ l) => //= b [<-|//] e e' v v' _ Hv.
    - by rewrite /c_short Hv.
    - by rewrite /c_upper => H i; rewrite -Hv.
    - by rewrite /c_lower => H i; rewrite -Hv.
  Qed.
  Lemma below_risk x k b : (x.+1 < k)%N -> con_below k (@c_risk n x b).
  Proof. move=> Hx e e' v v' He Hv. rewrite /c_risk. have [-> _] := He _ Hx. by rewrite Hv //; lia. Qed.

  Lemma backtest_grows (solve : solver_t n) W T a : grows W (backtest solve W T a).1.1 (a_cons a).
  Proof.
    rewrite /backtest. case: (match a_rhos a with Some _ => _ | None => _ end) => [rhos|ex]; last exact: grows_refl.
    have Hmr T0 : grows W (bt_min_risk solve W T0 a).1.1 (a_cons a).
      rewrite /bt_min_risk. case: (_ && _); first exact: grows_refl. case: (_ && _); first exact: grows_names.
      set W1 := extend _ _ _. have H1 : grows W W1 (a_cons a).
        apply: grows_extend => c /= [<-|Hc]; [apply: below_budget; lia|apply: (below_limits _ Hc); lia].
      case: (t_L_inv T0) => [|L0 Ls]; first exact: H1. case: (t_sigma_hats T0) => [|s0 ss]; first exact: H1.
      set e := (if _ then _ else _) : penv n. have He : env_below (w_next W) (w_env W) e.
        have Hm : env_below (w_next W) (w_env W) (set_mat (w_env W1) (w_next W).+1 L0) by apply: env_mat; lia.
        rewrite /e; case: (a_type a) => //. apply: env_trans Hm _. by apply: env_vec; lia.
      have H2 := grows_env H1 He.
      case: (match _ with Some _ => _ | None => _ end) => //. case: (worker _ _ _ _ _) => [?|?] //. case: (a_speedup a) => //.
      case: (mapM _ _) => [?|?] //. case: (np_array _) => [?|?] //. case: (a_type a) => //. by case: (a_sigma_des a).
    have Hmv T0 : grows W (bt_mean_variance solve W T0 a rhos).1.1 (a_cons a).
      rewrite /bt_mean_variance. case: (t_rhats T0) => [rh|]; last exact: grows_refl. case: (a_sigma_des a) => [sd|]; last exact: grows_refl.
      set W1 := extend _ _ _. have H1 : grows W W1 (a_cons a).
        apply: grows_extend => c /= [<-|[<-|Hc]]; [apply: below_budget; lia|apply: below_risk; lia|apply: (below_limits _ Hc); lia].
      case: (t_L_inv T0) => [|L0 Ls]; first exact: H1. case: rh => [|r0 rs]; first exact: H1.
      case: (match rhos with Some _ => _ | None => _ end) => [|q0 qs]; first exact: H1.
      set e := set_vec (set_mat _ _ _) _ _. have He : env_below (w_next W) (w_env W) e.
        apply: env_trans; last by apply: env_vec; rewrite /=; lia. by apply: env_mat; lia.
      case: (_ && _); first exact: grows_env.
      set e2 := (if isSome rhos then _ else _). have He2 : env_below (w_next W) (w_env W) e2.
        rewrite /e2. case: (isSome rhos) => //. apply: env_trans He _. by apply: env_vec; rewrite /=; lia.
      have H2 := grows_env H1 He2. case: (mapM _ _) => [?|?] //. by case: (np_array _) => [?|?].
    case: (a_type a) => //; try exact: grows_refl.
    - rewrite /bt_max_diverse. case: (upper_bound _) => [M|]; last exact: grows_names. case: (t_L_inv _) => [|L0 Ls]; first exact: grows_names.
      set e := set_vec _ _ _. have He : env_below (w_next W) (w_env W) e.
        apply: env_trans; last by apply: env_vec; rewrite /=; lia. by apply: env_mat; lia.
      have H2 := grows_env (grows_names W 3 (a_cons a)) He. case: (worker _ _ _ _ _) => [?|?] //. by case: (mapM _ _) => [?|?].
    - rewrite /bt_risk_parity. case: (t_L_inv _) => [|L0 Ls]; first exact: grows_names.
      set e := set_mat _ _ _. have He : env_below (w_next W) (w_env W) e by apply: env_mat; lia.
      have H2 := grows_env (grows_names W 2 (a_cons a)) He. case: (worker _ _ _ _ _) => [?|?] //. by case: (mapM _ _) => [?|?].
    - rewrite /bt_max_sharpe. case: (~~ _); first exact: grows_refl. case: (~~ _); exact: grows_names.
  Qed.

  Lemma grows_wf W W' r : well_formed W -> grows W W' r -> well_formed W'.
  Proof.
    move=> HW [H1 [H2 H3]] q c. have [ex [-> [_ Hex]]] := H3 q. rewrite in_app_iff => -[Hc|Hc]; last exact: Hex.
    apply: con_below_mono H1 _. exact: HW Hc.
  Qed.
  Lemma grows_poison W W' r q : well_formed W -> grows W W' r -> consistent W' q -> consistent W q.
  Proof.
    move=> HW [H1 [H2 H3]] [v]. have [ex [-> _]] := H3 q. rewrite all_hold_cat => -[Hv _]. exists v.
    apply: (all_hold_below _ (env_sym H2) _ Hv) => // c. exact: HW.
  Qed.
  Lemma calls_cons (solve : solver_t n) W c l : calls solve W (c :: l) = calls solve (backtest solve W c.1 c.2).1.1 l.
  Proof. by []. Qed.
  Lemma calls_grow (solve : solver_t n) l W : well_formed W ->
    well_formed (calls solve W l) /\ (forall q, exists ex, w_lists (calls solve W l) q = w_lists W q ++ ex) /\ (forall q, consistent (calls solve W l) q -> consistent W q).
  Proof.
    elim: l W => [|c l IH] W HW; first by split=> //; split=> // q; exists [::]; rewrite cats0.
    rewrite calls_cons. have Hg := backtest_grows solve W c.1 c.2. have HW' := grows_wf HW Hg. have [I1 [I2 I3]] := IH _ HW'. split=> //. split.
    - move=> q. have [ex1 E1] := I2 q. have [_ [_ /(_ q) [ex2 [E2 _]]]] := Hg. exists (ex2 ++ ex1). by rewrite E1 E2 catA.
    - move=> q Hq. exact: (grows_poison HW Hg (I3 q Hq)).
  Qed.

  (** A call of min_risk with limits that cannot be met leaves its list unsatisfiable; with limits that can, it does no harm. *)
  Definition plain_min_risk a : Prop := a_type a = MinRisk /\ a_speedup a = false.
  Lemma min_risk_list (solve : solver_t n) W T a : plain_min_risk a -> trader_ok T -> a_rhos a = None ->
    w_lists (backtest solve W T a).1.1 (a_cons a) = w_lists W (a_cons a) ++ @c_budget n false (w_next W) :: limit_cons n (a_limits a) (w_next W).
  Proof.
    move=> [Hty Hsp] HT Hr. rewrite /backtest Hr Hty /bt_min_risk Hty Hsp /=. have Hok := size_L HT. have Hsh := size_sh HT. have [_ [_ [Hpos _]]] := HT.
    case EL: (t_L_inv T) => [|L0 Ls]; first by rewrite EL /= in Hok; rewrite -Hok in Hpos.
    case Es: (t_sigma_hats T) => [|s0 ss]; first by rewrite Es /= in Hsh; rewrite -Hsh in Hpos.
    case: (worker _ _ _ _ _) => [?|?] /=; last by rewrite eqxx. set X := bind _ _. case: X => [?|?] /=; last by rewrite eqxx.
    case: (np_array _) => [?|?] /=; by rewrite eqxx.
  Qed.
  Lemma min_risk_consistent (solve : solver_t n) W T a : plain_min_risk a -> trader_ok T -> a_rhos a = None -> well_formed W ->
    consistent (backtest solve W T a).1.1 (a_cons a) <-> consistent W (a_cons a) /\ exists w : vec, portfolio (a_limits a) w.
  Proof.
    move=> Hp HT Hr HW. have [_ [He _]] := backtest_grows solve W T a. have Hb c : List.In c (w_lists W (a_cons a)) -> con_below (w_next W) c by exact: HW.
    rewrite {1}/consistent min_risk_list //. split.
    - move=> [v /all_hold_cat [H1 /own_min_risk H2]]. split; last by exists (v (w_next W)).1. exists v. apply: (all_hold_below Hb _ _ H1) => //. exact: env_sym.
    - move=> [[v Hv] [w Hw]]. exists (upd v (w_next W) (w, 0)). apply/all_hold_cat. split.
      + apply: (all_hold_below Hb He _ Hv). exact: upd_below.
      + apply/own_min_risk. by rewrite upd_same.
  Qed.
End Bt2.
