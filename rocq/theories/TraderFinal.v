(** * Remaining facts on trading_model.py. *)
From Coq Require Import Reals ZArith String List Lia Lra Classical.
Set Warnings "-notation-overridden,-ambiguous-paths".
From mathcomp Require Import all_ssreflect all_algebra.
From mathcomp.zify Require Import zify_ssreflect.
From Verif Require Import RStruct MatR Spectral Num Py Combination Trader SpecTrader TraderLists TraderOpt TraderBt TraderPort TraderParity TraderBt2 TraderHist TraderMain.
Set Implicit Arguments.
Unset Strict Implicit.
Unset Printing Implicit Defensive.
Import GRing.Theory.
Local Open Scope ring_scope.
Delimit Scope R_scope with re.

(** ** Default limits. *)
Lemma sum_const_R n (c : R) : (\sum_(i < n) c)%R = (INR n * c)%re.
Proof. elim: n => [|n IH]; first by rewrite big_ord0 /=; toR; ring. rewrite big_ord_recr /= IH. rewrite -/(INR n.+1) S_INR. toR. ring. Qed.
Lemma default_feasible n : (exists w : 'cV[R]_n, portfolio default_limits w) <-> (7 <= n)%N.
Proof.
  split.
  - case=> w [Hs [_ [Hu _]]]. have H : (1 <= INR n * (15 / 100))%re.
      rewrite -(sum_const_R n). have <- : (\sum_i w i 0)%R = 1%re by exact: Hs. apply: (@big_ind2 _ _ (fun a b => Rle a b)); first exact: Rle_refl.
        move=> a b c d H1 H2. toR. exact: Rplus_le_compat. move=> i _. have := Hu _ erefl i. by [].
    case: (leqP 7 n) => // Hn. have : (INR n <= 6)%re by rewrite (_ : 6%re = INR 6); [apply: le_INR; lia|rewrite /=; lra]. lra.
  - move=> Hn. have H7 : (7 <= INR n)%re by rewrite (_ : 7%re = INR 7); [apply: le_INR; lia|rewrite /=; lra].
    have Hp : (0 < / INR n)%re by apply: Rinv_0_lt_compat; lra.
    have Hle : (/ INR n <= / 7)%re by apply: Rinv_le_contravar; lra.
    have Hs : (INR n * / INR n)%re = 1%re by apply: Rinv_r; lra.
    exists (const_mx (/ INR n)%re). split.
      under eq_bigr do rewrite mxE. rewrite sum_const_R. exact: Hs.
    split=> [b [] <-|]; last split=> [b [] <-|b [] <-] i; rewrite ?mxE; try lra.
    rewrite (eq_bigr (fun=> (/ INR n)%re)); last by move=> i _; rewrite mxE Rabs_right //; lra. rewrite sum_const_R Hs. lra.
Qed.

(** ** Mean and standard deviation. *)
Lemma rmeanE l : rmean l = mean l.
Proof. by []. Qed.
Lemma INR_pos n : (0 < n)%N -> (0 < INR n)%re.
Proof. move=> H. rewrite -[0%re]/(INR 0). apply: lt_INR. lia. Qed.
Lemma sum_sq_shift (m : R) (l : seq R) : (\sum_(x <- l) (x - m) * (x - m))%R = (\sum_(x <- l) x * x)%R - (m + m) * (\sum_(x <- l) x)%R + INR (size l) * (m * m) :> R.
Proof. elim: l => [|x l IH]; first by rewrite !big_nil /=; toR; eqR; ring. rewrite !big_cons IH (_ : INR (size (x :: l)) = (INR (size l) + 1)%re); last exact: S_INR. hide_sums. toR. eqR. ring. Qed.
Lemma rstdE l : rstd l = std l.
Proof.
  rewrite /rstd /std. congr sqrt. rewrite /rmean size_map big_map -/(rmean l). rewrite sum_sq_shift. rewrite -rmeanE.
  case: l => [|x l]. - by rewrite /rmean !big_nil /=; toR; eqR; rewrite /Rdiv; ring.
  have : (0 < INR (size (x :: l)))%re by apply: INR_pos. rewrite /rmean. set N := INR _. hide_sums. move=> HN. toR. eqR. field. lra.
Qed.

Section Final.
  Context (n : nat).
  Notation vec := 'cV[R]_n.
  Implicit Types (W : world n) (T : trader n) (a : bt_args n).

  (** ** Returns. *)
  Lemma cash_ok rf t k : (forall l, rf = Some l -> (k <= size l)%N) -> (t < k)%N ->
    (match rf with None => Ok [:: R0] | Some rf => do x <- or_raise (List.nth_error rf t) IndexError; Ok [:: x] end) = Ok [:: rf_at rf t].
  Proof. case: rf => [l|] // H Ht. by rewrite (nth_error_nth R0) //; apply: leq_trans Ht _; exact: H. Qed.
  Lemma plain_loop T ws sd rf : t_ws T = Some [seq Some w | w <- ws] -> (forall l, rf = Some l -> (size (t_returns T) <= size l)%N) ->
    size ws = size (t_returns T) -> (forall w, w \in ws -> size w.2 = (if trades_cash (t_type T) then 1 else 0)%N) ->
    returns_loop T 0 (t_returns T) false sd rf = (T, (returns_of ws (t_returns T) rf, None)).
  Proof.
    move=> Hws Hrf Hs Hc. rewrite /returns_of. set rows := t_returns T in Hrf Hs *.
    suff : forall k, (k <= size rows)%N -> returns_loop T (size rows - k) (drop (size rows - k) rows) false sd rf =
      (T, ([seq day_return (nth (0, [::]) ws t) (nth 0 rows t) (rf_at rf t) | t <- iota (size rows - k) k], None)).
      move/(_ (size rows) (leqnn _)). by rewrite subnn drop0.
    elim=> [|k IH] Hk; first by rewrite subn0 drop_size.
    have Ht : (size rows - k.+1 < size rows)%N by lia. set t := (size rows - k.+1)%N in Ht *.
    have Et : (size rows - k = t.+1)%N by rewrite /t; lia.
    rewrite (drop_nth 0 Ht) /= Hws. rewrite (nth_error_nth None) /=; last by rewrite size_map Hs.
    have Htw : (t < size ws)%N by rewrite Hs. rewrite (nth_map (0, [::])) // orbF.
    have Ew := Hc _ (mem_nth (0, [::]) Htw). have IHk := IH ltac:(lia). rewrite Et in IHk. rewrite IHk {IHk}.
    case Er: (nth (0, [::]) ws t) Ew => [w cs] /=. case: (trades_cash (t_type T)).
    - case: cs Er => [|c [|? ?]] //= Er _. rewrite (cash_ok Hrf Ht) /=. congr (_, (_ :: _, _)). by rewrite /day_return /= !big_seq1.
    - case: cs Er => [|? ?] //= Er _. congr (_, (_ :: _, _)).  rewrite /day_return /= !big_nil Rmult_0_l /dotp. by [].
  Qed.
  Lemma plain_returns T ws sd rf : t_ws T = Some [seq Some w | w <- ws] -> (forall l, rf = Some l -> (size (t_returns T) <= size l)%N) ->
    size ws = size (t_returns T) -> (forall w, w \in ws -> size w.2 = (if trades_cash (t_type T) then 1 else 0)%N) ->
    get_total_returns T false sd rf = (set_rets (returns_of ws (t_returns T) rf) T, None).
  Proof. move=> H1 H2 H3 H4. by rewrite /get_total_returns (plain_loop _ H1 H2 H3 H4). Qed.
  Lemma diluted_returns T ws wd sd rf : t_diluted T = true -> t_ws T = Some ws -> t_ws_diluted T = Some wd -> (forall l, rf = Some l -> (size (t_returns T) <= size l)%N) ->
    size wd = size (t_returns T) -> (forall w, w \in wd -> size w.2 = 1%N) ->
    get_total_returns T true sd rf = (set_rets (returns_of wd (t_returns T) rf) T, None).
  Proof.
    move=> Hd Hws Hwd Hrf Hs Hc. rewrite /get_total_returns (returns_loop_diluted sd rf Hd Hws Hwd) diluted_loop_ok //.
    - congr (set_rets _ _, _). rewrite /returns_of. apply/eq_in_map => t. rewrite mem_iota add0n => /andP [_ Ht]. rewrite -Hs in Ht.
      have := Hc _ (mem_nth (0, [::]) Ht). rewrite /day_return. case: (nth _ wd t) => w [|c [|? ?]] //= _. by rewrite big_seq1.
    - move=> t Ht. apply: Hc. by apply: mem_nth; rewrite Hs.
  Qed.
  (** The first diluted evaluation dilutes. *)
  Lemma dilute_first T ws sd rf : t_diluted T = false -> t_ws T = Some ws -> (0 < size (t_returns T))%N ->
    get_total_returns T true (Some sd) rf =
    (let '(T', e) := dilute_with_cash T sd in if e is Some ex then (T', Some ex) else get_total_returns T' true (Some sd) rf).
  Proof.
    move=> Hd Hws. rewrite /get_total_returns. case Er: (t_returns T) => [|r0 rows] // _. rewrite [returns_loop T _ _ _ _ _]/= Hws Hd.
    case Ed: (dilute_with_cash T sd) => [T' [ex|]] //.
    have [wd [E1 [E2 [E3 E4]]]] : exists wd, t_diluted T' = true /\ t_ws T' = Some ws /\ t_ws_diluted T' = Some wd /\ t_returns T' = t_returns T.
      move: Ed. rewrite /dilute_with_cash Hd Hws. case: (mapM _ _) => [wd|ex] // [] <-. by exists wd.
    by rewrite E4 Er /= E1 E2.
  Qed.

  (** ** Metrics. *)
  Lemma metrics_main T d sd rf ex T' m : get_metrics T d sd rf ex = (T', Ok m) ->
    exists r Vs, t_rets T' = Some r /\ t_Vs T' = Some Vs /\ t_adjust T' = t_adjust T /\ size Vs = size r /\
      (forall t, (t < size r)%N -> nth R0 Vs t = \prod_(s < t.+1) (1 + nth R0 r s / t_adjust T)%re) /\
      (exists T1, get_total_returns T d sd rf = (T1, None) /\ t_rets T1 = Some r) /\
      (ex = false -> m_mean m = (252 * mean [seq (x / t_adjust T)%re | x <- r])%re /\ m_risk m = (sqrt 252 * std [seq (x / t_adjust T)%re | x <- r])%re) /\
      (ex = true -> exists l, rf = Some l /\ size l = size r /\
         m_mean m = (252 * mean [seq (x.1 / t_adjust T - x.2)%re | x <- zip r l])%re /\ m_risk m = (sqrt 252 * std r)%re) /\
      (m_risk m = 0 -> m_sharpe m = None) /\ (m_risk m <> 0 -> m_sharpe m = Some (m_mean m / m_risk m)%re) /\
      compute_max_drawdown T' = Ok (m_drawdown m) /\ ((forall V, V \in Vs -> Rlt 0 V) -> is_max_drawdown Vs (m_drawdown m)).
  Proof.
    have Hadj : forall T, t_adjust (get_total_returns T d sd rf).1 = t_adjust T.
      move=> T0. rewrite /get_total_returns. have : forall rows t T1, t_adjust (returns_loop T1 t rows d sd rf).1 = t_adjust T1.
        elim=> [|r rows IH] t T1 //=. case: (t_ws T1) => [ws|] //. set X := (if d then _ else _). have : t_adjust X.1 = t_adjust T1.
          rewrite /X. case: (d) => //. case: (t_diluted T1) => //. case: (sd) => [sd'|] //. rewrite /dilute_with_cash. case: (t_diluted T1) => //. case: (t_ws T1) => [ws'|] //. by case: (mapM _ _).
        case: X => T2 [w|e] //= H2. case: (bind _ _) => [x|e] //=. have := IH t.+1 T2. by case: (returns_loop _ _ _ _ _ _) => T3 [xs e] /= ->.
      move=> /(_ (t_returns T0) 0%N T0). by case: (returns_loop _ _ _ _ _ _) => T3 [xs [e|]].
    rewrite /get_metrics. have := Hadj T. case Eg: (get_total_returns T d sd rf) => [T1 [e|]] //= E1.
    rewrite /get_portfolio_growth. case Er: (t_rets T1) => [r|] //= [] <-. rewrite Er E1.
    set ms := (if ex then _ else _). case Ems: ms => [mm|] //=. case Ed: (compute_max_drawdown _) => [dd|] //= [] <- /=.
    exists r, (growth 1 (t_adjust T) r). rewrite growth_size. split=> //. split=> //. split=> //. split=> //. split; first by move=> t Ht; rewrite growth_nth // mul1r.
    split; first by exists T1. split.
      move=> Hex. move: Ems. rewrite /ms Hex => -[] <- /=. rewrite rmeanE rstdE. split; exact: Rmult_comm.
    split.
      move=> Hex. move: Ems. rewrite /ms Hex. case: (rf) => [l|] //. case: eqP => // Hl [] <- /=. exists l. split=> //. split=> //. rewrite rmeanE rstdE. split; rewrite Rmult_comm //.
      congr (_ * mean _)%re. clear. elim: r l => [|x r IH] [|y l] //=. by rewrite IH.
    split; first by rdecE H. split; first by rdecE H. split=> //. move=> Hpos.
    have Hne : growth 1 (t_adjust T) r <> [::] by move=> E; move: Ed; rewrite /compute_max_drawdown /= E.
    have [dd' [H1 H2]] := @drawdown_main n (set_Vs (growth 1 (t_adjust T) r) T1) (growth 1 (t_adjust T) r) erefl Hne Hpos. by move: Ed; rewrite H1 => -[] <-.
  Qed.

  (** ** The first dilution wins. *)
  Lemma first_dilution (solve : solver_t n) W T0 ws sd wd rf ex ops W' T' sd' : t_diluted T0 = false -> t_ws T0 = Some ws -> dilute_with_cash T0 sd = (wd, None) ->
    history solve (W, wd) ops = (W', T') -> t_adjust T' = t_adjust T0 -> (0 < size (t_returns T0))%N ->
    (get_metrics T' true sd' rf ex).2 = (get_metrics T0 true (Some sd) rf ex).2.
  Proof.
    move=> Hd Hws Ed Eh Ea H0. have E0 : (get_metrics T0 true (Some sd) rf ex).2 = (get_metrics wd true (Some sd) rf ex).2.
      by rewrite /get_metrics (dilute_first _ _ Hd Hws H0) Ed.
    rewrite E0. have [rows [D1 [D2 [D3 [D4 D5]]]]] : exists rows, t_diluted wd = true /\ t_ws wd = Some ws /\ t_ws_diluted wd = Some rows /\ t_returns wd = t_returns T0 /\ t_adjust wd = t_adjust T0.
      move: Ed. rewrite /dilute_with_cash Hd Hws. case: (mapM _ _) => [rows|e] // [] <-. by exists rows.
    have [K1 [K2 [K3 K4]]] := history_kept solve ops W D1. rewrite Eh /= in K1 K2 K3 K4.
    have [ws' Ews'] : exists ws', t_ws T' = Some ws' by case: (t_ws T') K4 => [ws'|] K4; [exists ws'|case: K4 => //; rewrite D2].
    apply: (metrics_diluted _ _ _ _ K1 D1 Ews' D2 _ D3); rewrite ?K2 ?K3 //. by rewrite Ea D5.
  Qed.

  (** ** SolverError only comes from the solver. *)
  Lemma mapM_exn A B (f : A -> res B) l ex : mapM f l = Raise ex -> exists x, f x = Raise ex.
  Proof. elim: l => [|x l IH] //=. case E: (f x) => [y|e] /=; last by case=> <-; exists x. case E2: (mapM f l) => [ys|e] //= H. apply: IH. by rewrite E2. Qed.
  Lemma no_solver_error (solve : solver_t n) W T a : (forall f P, solve f P <> Failed n) -> (backtest solve W T a).2 <> Some SolverError.
  Proof.
    move=> Hnf. have Hw : forall f cons e x, exists r, @worker n solve f cons e x = Ok r.
      move=> f cons e x. rewrite /worker /prob_solve. case E: (solve _ _) => [v| |]; [by eexists|by eexists|by case: (Hnf _ _ E)].
    have Hnp : forall A (l : seq (option A)), np_array l <> Raise SolverError by move=> A l; rewrite /np_array; case: ifP.
    have Hno : forall z : vec, normalized z <> Raise SolverError by move=> z; rewrite /normalized; case: ifP.
    rewrite /backtest. set X := match a_rhos a with Some _ => _ | None => _ end. have HX : X <> Raise SolverError.
      rewrite /X. case: (a_rhos a) => [d|] //. case E: (mapM _ _) => [y|e] //= [] H. rewrite H in E. have [t] := mapM_exn E. by case: (dict_get _ _ _).
    case: X HX => [ro|e] //=; last by move=> H [] E; rewrite E in H. move=> _.
    have Hmr : forall T a, (bt_min_risk solve W T a).2 <> Some SolverError.
      move=> T0 a0. rewrite /bt_min_risk. case: ifP => // _. case: ifP => // _. case: (t_L_inv T0) => [|L0 Ls] //. case: (t_sigma_hats T0) => [|s0 ss] //.
      case: ifP => // _. match goal with |- context [match worker solve ?f ?c ?e ?x with _ => _ end] => have [r ->] := Hw f c e x end. case: ifP => // _.
      case Em: (mapM _ _) => [sols|e] /=; last first. { move=> [] H. rewrite H in Em. have [L HL] := mapM_exn Em. move: HL. by match goal with |- context [worker solve ?f ?c ?e ?x] => have [r' ->] := Hw f c e x end. }
      case En: (np_array sols) => [s|e] /=; last by move=> [] H; rewrite H in En; case: (Hnp _ _ En).
      case: (a_type a0) => //. case: (a_sigma_des a0) => // sd. by case: ifP.
    case: (a_type a) => //.
    - rewrite /bt_mean_variance. case: (t_rhats _) => [rh|] //. case: (a_sigma_des a) => // sd. case: (t_L_inv _) => [|L0 Ls] //. case: rh => [|r0 rh] //. case: (if ro is Some r then _ else _) => [|q0 qs] //.
      case: ifP => // _. case Em: (mapM _ _) => [sols|e] /=; last first. { move=> [] H. rewrite H in Em. have [L HL] := mapM_exn Em. move: HL. rewrite /mv_worker. case: ifP => // _. by match goal with |- context [worker solve ?f ?c ?e ?x] => have [r' ->] := Hw f c e x end. }
      case En: (np_array sols) => [s|e] //=. move=> [] H; rewrite H in En; case: (Hnp _ _ En).
    - rewrite /bt_max_diverse. case: (upper_bound _) => [M|] //. case: (t_L_inv _) => [|L0 Ls] //. match goal with |- context [match worker solve ?f ?c ?e ?x with _ => _ end] => have [r ->] := Hw f c e x end.
      case Em: (mapM _ _) => [sols|e] //=. move=> [] H. rewrite H in Em. have [L HL] := mapM_exn Em. move: HL. match goal with |- context [worker solve ?f ?c ?e ?x] => have [r' ->] := Hw f c e x end. case: r' => [r'|] //=. exact: Hno.
    - rewrite /bt_risk_parity. case: (t_L_inv _) => [|L0 Ls] //. match goal with |- context [match worker solve ?f ?c ?e ?x with _ => _ end] => have [r ->] := Hw f c e x end.
      case Em: (mapM _ _) => [sols|e] //=. move=> [] H. rewrite H in Em. have [L HL] := mapM_exn Em. move: HL. match goal with |- context [worker solve ?f ?c ?e ?x] => have [r' ->] := Hw f c e x end. case: r' => [r'|] //=. exact: Hno.
    - rewrite /bt_max_sharpe. case: ifP => // _. by case: ifP.
  Qed.

  (** ** Shared constraint lists. *)
  Lemma poison_main (solve : solver_t n) W T a l T' a' : solve_ok solve -> well_formed W ->
    trader_ok T -> plain_min_risk a -> a_rhos a = None -> (~ exists w : vec, portfolio (a_limits a) w) ->
    trader_ok T' -> plain_min_risk a' -> a_rhos a' = None -> a_cons a' = a_cons a ->
    let W1 := calls solve (backtest solve W T a).1.1 l in
    let '(_, T2, e) := backtest solve W1 T' a' in
    e = Some SolverError \/ (e = None /\ t_ws T2 = Some (nseq (size (t_times T')) None)).
  Proof.
    move=> Hso HW HT Ha Hr Hno HT' Ha' Hr' Ec. have HW0 := grows_wf HW (backtest_grows solve W T a).
    have [HW1 [_ Hc]] := calls_grow solve l HW0. have Hbad : ~ consistent (calls solve (backtest solve W T a).1.1 l) (a_cons a').
      rewrite Ec => /Hc /(min_risk_consistent solve Ha HT Hr HW) [_ H]. exact: Hno.
    have := min_risk_main Hso HT' HW1 (proj1 Ha') (proj2 Ha') Hr'. rewrite /=. case: (backtest _ _ _ _) => [[W2 T2] e] [->|[-> [ws [ob [Ews [_ [Es H]]]]]]]; [by left|right].
    split=> //. rewrite Ews. congr Some. apply: (@eq_from_nth _ None); first by rewrite size_nseq Es. move=> t Ht. rewrite nth_nseq.
    case: H => [[H _]|[_ H]]; first by case: Hbad. rewrite Es in Ht. by rewrite H // Ht.
  Qed.
  Lemma same_as_fresh (solve : solver_t n) W T a : solve_ok solve -> (forall f P, solve f P <> Failed n) -> well_formed W ->
    trader_ok T -> plain_min_risk a -> a_rhos a = None -> consistent W (a_cons a) ->
    t_ws (backtest solve W T a).1.2 = t_ws (backtest solve (fresh_world n) T a).1.2 /\ (backtest solve W T a).2 = (backtest solve (fresh_world n) T a).2.
  Proof.
    move=> Hso Hnf HW HT Ha Hr Hc.
    have HWf : well_formed (fresh_world n) by []. have Hcf : consistent (fresh_world n) (a_cons a) by exists (fun=> (0, 0)); constructor.
    have := min_risk_main Hso HT HW (proj1 Ha) (proj2 Ha) Hr. have := min_risk_main Hso HT HWf (proj1 Ha) (proj2 Ha) Hr.
    have NE : forall W0, well_formed W0 -> (backtest solve W0 T a).2 <> Some SolverError.
      move=> W0 _. exact: no_solver_error.
    have := NE _ HW. have := NE _ HWf. rewrite /=.
    case: (backtest solve (fresh_world n) T a) => [[Wf Tf] ef]. case: (backtest solve W T a) => [[W2 T2] e2] /= N1 N2.
    case=> [//|[-> [ws [ob [Ews [_ [Es H]]]]]]]. case=> [//|[-> [ws' [ob' [Ews' [_ [Es' H']]]]]]]. split=> //. rewrite Ews Ews'. congr Some.
    apply: (@eq_from_nth _ None); first by rewrite Es. rewrite Es' => t Ht.
    have HS : spd (nth 0 (t_Sigmas T) t) by have [_ HS] := day_L 0 HT Ht.
    case: H => [[_ [Hf [_ H]]]|[Hbad H]]; last first.
      rewrite H //. case: H' => [[_ [Hf' _]]|[_ H']]; last by rewrite H'. by case: Hbad => [?|[]].
    case: H' => [[_ [_ [_ H']]]|[[?|?] _]] //. have [w [Ew [Mw _]]] := H t Ht. have [w' [Ew' [Mw' _]]] := H' t Ht. rewrite Ew Ew'.
    by rewrite (min_unique HS (@portfolio_mid n _) Mw Mw').
  Qed.

  (** ** Options that cannot work. *)
  Lemma speedup_dead (solve : solver_t n) W T a : trader_ok T -> a_type a = MinRisk -> a_rhos a = None -> a_speedup a = true -> (backtest solve W T a).2 = Some NameError.
  Proof. move=> HT Hty Hr Hsp. by rewrite /backtest Hr Hty /bt_min_risk Hty Hsp. Qed.
  Lemma sharpe_dead (solve : solver_t n) W T a rh : a_type a = MaxSharpe -> a_rhos a = None -> t_rhats T = Some rh -> upper_bound (a_limits a) <> None -> (backtest solve W T a).2 = Some AttributeError.
  Proof. move=> Hty Hr Hrh Hu. rewrite /backtest Hr Hty /bt_max_sharpe /= Hrh /=. by case: (upper_bound _) Hu. Qed.
  Lemma rhos_dead returns (Sig : seq (Z * 'M[R]_n)) rh T : new_trader returns Sig rh true <> Ok T.
  Proof. rewrite /new_trader. case: ifP => // _. by case: ifP. Qed.

  Lemma lost_for_ever (solve : solver_t n) W T ops W' T' sd rf ex : t_diluted T = true -> t_ws_diluted T = None -> (0 < size (t_returns T))%N ->
    history solve (W, T) ops = (W', T') -> (get_metrics T' true sd rf ex).2 = Raise AttributeError.
  Proof.
    move=> Hd Hw H0 Eh. have [K1 [K2 [K3 K4]]] := history_kept solve ops W Hd. rewrite Eh /= in K1 K2 K3 K4.
    apply: lost_metrics => //; by rewrite ?K2 ?K3.
  Qed.

  (** ** Statements in final form. *)
  Lemma growth_main T r : t_rets T = Some r -> exists Vs, get_portfolio_growth T = (set_Vs Vs T, None) /\ size Vs = size r /\
    forall t, (t < size r)%N -> nth R0 Vs t = \prod_(s < t.+1) (1 + nth R0 r s / t_adjust T)%re.
  Proof. move=> E. rewrite /get_portfolio_growth E. eexists. split; first by reflexivity. rewrite growth_size. split=> // t Ht. by rewrite growth_nth // mul1r. Qed.
  Lemma risk_adj_main T r sd : t_rets T = Some r -> std r <> 0 -> Rle 0 sd ->
    exists r', get_risk_adj_returns T sd = (set_rets_adj r' T, None) /\ (sqrt 252 * std r')%re = sd /\ exists c, Rle 0 c /\ r' = [seq c * x | x <- r].
  Proof.
    move=> E Hs Hsd. rewrite /get_risk_adj_returns E. have Hs' : rstd r <> 0 by rewrite rstdE. have Hp : (0 < rstd r)%re by case: (Rle_lt_or_eq_dec 0 (rstd r) (sqrt_pos _)) => // H; case: Hs'.
    rdecE H; first by case: Hs'. have H252 := sqrt252. have Hp2 : (0 < sqrt 252 * rstd r)%re by apply: Rmult_lt_0_compat.
    have Hc : (0 <= sd / (sqrt 252 * rstd r))%re by apply: Rmult_le_pos => //; apply: Rlt_le; exact: Rinv_0_lt_compat.
    eexists. split; first by reflexivity. split; last by eexists; split; [exact: Hc|].
    rewrite -rstdE rstd_scale Rabs_right; last exact: Rle_ge. toR. field. by split; lra.
  Qed.
  Lemma drawdown_final T Vs : t_Vs T = Some Vs -> Vs <> [::] -> (forall V, V \in Vs -> Rlt 0 V) ->
    exists dd, compute_max_drawdown T = Ok dd /\ is_max_drawdown Vs dd /\ Rle 0 dd /\ Rlt dd 1 /\
      (dd = 0 <-> forall s t, (s <= t < size Vs)%N -> Rle (nth R0 Vs s) (nth R0 Vs t)) /\
      (forall c T', Rlt 0 c -> t_Vs T' = Some [seq (c * V)%re | V <- Vs] -> @compute_max_drawdown n T' = Ok dd).
  Proof.
    move=> E Hn Hp. have [dd [H1 H2]] := drawdown_main E Hn Hp. exists dd. split=> //. split=> //. have [[R1 R2] R3] := dd_range Hp H2. split=> //. split=> //. split=> //.
    move=> c T' Hc E'. have Hp' : forall V, V \in [seq (c * V)%re | V <- Vs] -> (0 < V)%re by move=> V /mapP [V' /Hp H ->]; apply: Rmult_lt_0_compat.
    have [|dd' [H1' H2']] := drawdown_main E' _ Hp'; first by case: (Vs) Hn. rewrite H1'. congr Ok.
    apply: max_unique H2' (dd_scale _ _ H2); [lra|by move=> V /Hp; lra].
  Qed.
  Lemma dilute_final T sd ws : trader_ok T -> t_diluted T = false -> t_ws T = Some [seq Some w | w <- ws] -> size ws = size (t_times T) ->
    (forall w, w \in ws -> w.1 != 0 /\ row_sum w = 1) -> Rle 0 sd ->
    exists wd, dilute_with_cash T sd = (set_ws_diluted wd T, None) /\ size wd = size ws /\
      forall t, (t < size ws)%N -> let w := nth (0, [::]) ws t in let w' := nth (0, [::]) wd t in
        row_sum w' = 1 /\ (sqrt 252 * vol (nth 0%R (t_Sigmas T) t) w'.1)%re = sd /\
        exists th, Rle 0 th /\ w'.1 = th *: w.1 /\ w'.2 = [seq th * c | c <- w.2] ++ [:: (1 - th)%re].
  Proof.
    move=> HT Hd Hws Hs Hw Hsd.
    have Hn t : (t < size ws)%N -> nth None [seq Some w | w <- ws] t = Some ((nth (0, [::]) ws t).1, (nth (0, [::]) ws t).2).
      move=> Ht. rewrite (nth_map (0, [::])) //. by case: (nth _ _ _).
    have [||wd [E1 [E2 E3]]] := @dilute_main n T sd _ HT Hd Hws; rewrite ?size_map //.
      move=> t Ht. have [H _] := Hw _ (mem_nth (0, [::]) Ht). do 2 eexists. split; [exact: Hn|exact: H].
    rewrite size_map in E2 E3. exists wd. split=> //. split=> // t Ht w w'. have [Hw0 Hw1] := Hw _ (mem_nth (0, [::]) Ht). have Ht' : (t < size (t_times T))%N by rewrite -Hs.
    have HS : spd (nth 0 (t_Sigmas T) t) by have [_ HS] := day_L 0 HT Ht'.
    have Ew' := E3 t _ _ Ht (Hn t Ht). rewrite /= in Ew'. rewrite /w' Ew' /=. have [T1 T2] := theta_vol HS Hw0 Hsd. split.
      apply: diluted_row_ok. move: Hw1. by case: (nth _ _ _).
    split=> //. eexists. by split; first exact: T1.
  Qed.
  Lemma vol_cont_final T (ws : seq vec) (ob : seq R) sd : trader_ok T -> size ws = size (t_times T) -> size ob = size (t_times T) -> Rle 0 sd ->
    (forall t, (t < size ws)%N -> nth 0%R ws t != 0 /\ (\sum_i nth 0%R ws t i 0)%R = 1 /\ nth 0 ob t = vol (nth 0 (t_Sigmas T) t) (nth 0 ws t)) ->
    exists wd, get_vol_cont_w T ws ob sd = Ok wd /\ size wd = size ws /\
      forall t, (t < size ws)%N -> let w' := nth (0, [::]) wd t in
        row_sum w' = 1 /\ (sqrt 252 * vol (nth 0%R (t_Sigmas T) t) w'.1)%re = (sd * sqrt (t_adjust T))%re /\
        exists th, Rle 0 th /\ w' = (th *: nth 0 ws t, [:: (1 - th)%re]).
  Proof.
    move=> HT Hs Hso Hsd H. rewrite /get_vol_cont_w Hs Hso eqxx /=.
    have HS t : (t < size ws)%N -> spd (nth 0 (t_Sigmas T) t) by rewrite Hs => Ht; have [_ HS] := day_L 0 HT Ht.
    have -> : has (fun o => o == 0) ob = false.
      apply/negbTE/hasPn => o /(nthP 0) [t Ht <-]. rewrite Hso -Hs in Ht. have [Hw [_ ->]] := H t Ht. apply/eqP => E.
      have : (0 < vol (nth 0%R (t_Sigmas T) t) (nth 0%R ws t))%re by apply: vol_gt0 => //; exact: HS. rewrite E. toR. exact: Rlt_irrefl.
    eexists. split; first by reflexivity. rewrite size_map size_zip Hs Hso minnn. split=> // t Ht. rewrite (nth_map (0, 0)); last by rewrite size_zip Hs Hso minnn.
    rewrite nth_zip ?Hs ?Hso //. have Ht' : (t < size ws)%N by rewrite Hs. have [H1 [H2 H3]] := H t Ht'. have [R1 [R2 R3]] := vol_cont_rowE (t_adjust T) (HS t Ht') H1 H3 H2 Hsd.
    by split.
  Qed.
End Final.
