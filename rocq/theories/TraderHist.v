(** * Dilution with cash, returns and metrics, histories of one trader. *)
From Coq Require Import Reals ZArith String List Lia Lra Classical.
Set Warnings "-notation-overridden,-ambiguous-paths".
From mathcomp Require Import all_ssreflect all_algebra.
From mathcomp.zify Require Import zify_ssreflect.
From Verif Require Import RStruct MatR Spectral Num Py Combination Trader SpecTrader TraderLists TraderOpt TraderBt.
Set Implicit Arguments.
Unset Strict Implicit.
Unset Printing Implicit Defensive.
Import GRing.Theory.
Local Open Scope ring_scope.
Delimit Scope R_scope with re.

Section Hist.
  Context (n : nat).
  Notation vec := 'cV[R]_n.
  Implicit Types (W : world n) (T : trader n) (a : bt_args n).

  (** ** Dilution of one row. *)
  Lemma dilute_rowE sd S (w : vec) c : spd S -> w != 0 -> let th := (sd / (sqrt 252 * vol S w))%re in
    dilute_row sd S (Some (w, c)) = Ok (th *: w, [seq th * x | x <- c] ++ [:: (1 - th)%re]).
  Proof.
    move=> HS Hw th. rewrite /dilute_row /=. have Hv := vol_gt0 HS Hw. rewrite -/(vol S w). rdecE H; first by lra.
    have H2 := sqrt252. have -> : (sqrt (1 / 252) * (sd / vol S w) = th)%re; last by [].
    rewrite /th sqrt_div_alt; last lra. rewrite sqrt_1. field. split; lra.
  Qed.
  Lemma diluted_row_ok (w : vec) (c : seq R) (th : R) : row_sum (w, c) = 1 ->
    row_sum (th *: w, [seq th * x | x <- c] ++ [:: (1 - th)%re]) = 1.
  Proof.
    rewrite /row_sum /= => H. rewrite big_cat big_map /= big_seq1 -big_distrr /=. under eq_bigr do rewrite scaleE. rewrite -big_distrr /=.
    move: H. move: (\sum_i w i 0) (\sum_(j <- c) j) => p q. toR. move=> H. eqR. have -> : (p = 1 - q)%re by lra. ring.
  Qed.
  Lemma theta_vol sd (S : 'M[R]_n) w : spd S -> w != 0 -> Rle 0 sd -> let th := (sd / (sqrt 252 * vol S w))%re in
    (0 <= th)%re /\ (sqrt 252 * vol S (th *: w))%re = sd.
  Proof.
    move=> HS Hw Hsd th. have Hv := vol_gt0 HS Hw. have H2 := sqrt252.
    have Hth : (0 <= th)%re.
      apply: Rmult_le_pos => //. apply: Rlt_le. apply: Rinv_0_lt_compat. exact: Rmult_lt_0_compat.
    split=> //. rewrite volZ Rabs_pos_eq // /th. field. split; lra.
  Qed.
  Lemma dilute_main T sd ws : trader_ok T -> t_diluted T = false -> t_ws T = Some ws -> size ws = size (t_times T) ->
    (forall t, (t < size ws)%N -> exists w c, nth None ws t = Some (w, c) /\ w != 0) ->
    exists wd, dilute_with_cash T sd = (set_ws_diluted wd T, None) /\ size wd = size ws /\
      forall t w c, (t < size ws)%N -> nth None ws t = Some (w, c) ->
        let th := (sd / (sqrt 252 * vol (nth 0%R (t_Sigmas T) t) w))%re in
        nth (0, [::]) wd t = (th *: w, [seq th * x | x <- c] ++ [:: (1 - th)%re]).
  Proof.
    move=> HT Hd Hws Hsz Hrows. rewrite /dilute_with_cash Hd Hws.
    have [HsS [_ [_ [_ [Hspd _]]]]] := HT.
    have Hz t : (t < size ws)%N -> nth (0, None) (zip (t_Sigmas T) ws) t = (nth 0 (t_Sigmas T) t, nth None ws t) by move=> Ht; rewrite nth_zip // HsS Hsz.
    have Hzs : size (zip (t_Sigmas T) ws) = size ws by rewrite size_zip HsS Hsz minnn.
    have HSt t : (t < size ws)%N -> spd (nth 0 (t_Sigmas T) t) by move=> Ht; apply: Hspd; apply: mem_nth; rewrite HsS -Hsz.
    have [|wd Em] := @mapM_ok _ _ (fun d : 'M_n * wrow n => dilute_row sd d.1 d.2) (zip (t_Sigmas T) ws).
      move=> t d0 Ht. rewrite Hzs in Ht. rewrite (set_nth_default (0, None)) ?Hzs // Hz //. cbn [fst snd]. have [w [c [-> Hw]]] := Hrows t Ht.
      rewrite dilute_rowE //; last exact: HSt. by eexists.
    rewrite Em. exists wd. have [Hs Hn] := mapM_nth Em. rewrite Hzs in Hs Hn. split=> //. split=> // t w c Ht Hrow.
    have := Hn t (0, None) (0, [::]) Ht. rewrite Hz //. cbn [fst snd]. have [w' [c' [E Hw]]] := Hrows t Ht. rewrite Hrow in E. case: E => E _. rewrite -E in Hw. rewrite Hrow.
    rewrite dilute_rowE //; last exact: HSt. by case=> <-.
  Qed.

  (** ** The volatility-controlled rows. *)
  Lemma vol_cont_rowE sd af (S : 'M[R]_n) w o : spd S -> w != 0 -> o = vol S w -> \sum_i w i 0 = 1 -> Rle 0 sd ->
    let r := vol_cont_row sd af (w, o) in row_sum r = 1 /\ (sqrt 252 * vol S r.1)%re = (sd * sqrt af)%re /\
      exists th, Rle 0 th /\ r = (th *: w, [:: (1 - th)%re]).
  Proof.
    move=> HS Hw Ho Hsum Hsd r. have Hv := vol_gt0 HS Hw. have H2 := sqrt252. have Haf := sqrt_pos af.
    set s := (sd * sqrt af / sqrt 252)%re. have Hs : (0 <= s)%re.
      apply: Rmult_le_pos; [exact: Rmult_le_pos|apply: Rlt_le; exact: Rinv_0_lt_compat].
    have Hth : (0 <= s / o)%re by rewrite Ho; apply: Rmult_le_pos => //; apply: Rlt_le; exact: Rinv_0_lt_compat.
    have Er : r = ((s / o)%re *: w, [:: (1 - s / o)%re]).
      rewrite /r /vol_cont_row /= -/s. have -> : (1 - (1 - s / o) = s / o)%re by ring. by [].
    split; [|split].
    - rewrite Er /row_sum /= big_seq1. under eq_bigr do rewrite scaleE. rewrite -big_distrr /= Hsum mulr1. toR. eqR. ring.
    - rewrite Er /= volZ Rabs_pos_eq // Ho /s. field. split; lra.
    - exists (s / o)%re. by split.
  Qed.

  (** ** Returns. *)
  Definition rf_ok T (rf : option (seq R)) : Prop := forall l, rf = Some l -> (size (t_returns T) <= size l)%N.
  Lemma nth_error_nth A (d : A) l t : (t < size l)%N -> List.nth_error l t = Some (nth d l t).
  Proof. elim: l t => [|x l IH] [|t] //= H. exact: IH. Qed.

  (** A trader that is already diluted: what it computes does not depend on anything but the stored rows. *)
  Fixpoint diluted_loop (wd : seq (vec * seq R)) (t : nat) (rows : seq vec) (rf : option (seq R)) : seq R * option exn :=
    match rows with
    | [::] => ([::], None)
    | r :: rows =>
        match (do w <- or_raise (List.nth_error wd t) IndexError;
               do cash <- (if rf is Some rf then do x <- or_raise (List.nth_error rf t) IndexError; Ok [:: x] else Ok [:: 0]);
               np_dot (Some w) r cash) with
        | Raise ex => ([::], Some ex)
        | Ok x => let '(xs, e) := diluted_loop wd t.+1 rows rf in (x :: xs, e)
        end
    end.
  Lemma returns_loop_diluted T ws wd sd rf : t_diluted T = true -> t_ws T = Some ws -> t_ws_diluted T = Some wd ->
    forall rows t, returns_loop T t rows true sd rf = (T, diluted_loop wd t rows rf).
  Proof.
    move=> Hd Hw Hwd. elim=> [|r rows IH] t //=. rewrite Hw Hd Hwd orbT.
    case: (List.nth_error wd t) => [w|] //=. case: rf IH => [rf|] IH /=; [case: (List.nth_error rf t) => [x|] //= |].
    - case: ifP => // _. rewrite IH. by case: (diluted_loop _ _ _ _).
    - case: ifP => // _. rewrite IH. by case: (diluted_loop _ _ _ _).
  Qed.
  Lemma metrics_diluted T1 T2 ws1 ws2 wd sd1 sd2 rf ex : t_diluted T1 = true -> t_diluted T2 = true -> t_ws T1 = Some ws1 -> t_ws T2 = Some ws2 ->
    t_ws_diluted T1 = Some wd -> t_ws_diluted T2 = Some wd -> t_returns T1 = t_returns T2 -> t_adjust T1 = t_adjust T2 ->
    (get_metrics T1 true sd1 rf ex).2 = (get_metrics T2 true sd2 rf ex).2.
  Proof.
    move=> D1 D2 W1 W2 E1 E2 HR HA. rewrite /get_metrics /get_total_returns (returns_loop_diluted sd1 rf D1 W1 E1) (returns_loop_diluted sd2 rf D2 W2 E2) HR.
    case: (diluted_loop _ _ _ _) => xs [e|] //=. by rewrite HA.
  Qed.

  Lemma diluted_loop_ok wd rows rf : (forall l, rf = Some l -> (size rows <= size l)%N) -> size wd = size rows ->
    (forall t, (t < size rows)%N -> size (nth (0, [::]) wd t).2 = 1%N) ->
    diluted_loop wd 0 rows rf = ([seq (\sum_i (nth (0, [::]) wd t).1 i 0 * (nth 0 rows t) i 0) + nth R0 (nth (0, [::]) wd t).2 0 * rf_at rf t | t <- iota 0 (size rows)], None).
  Proof.
    move=> Hrf Hs H1.
    suff : forall k, (k <= size rows)%N -> diluted_loop wd (size rows - k) (drop (size rows - k) rows) rf =
      ([seq (\sum_i (nth (0, [::]) wd t).1 i 0 * (nth 0 rows t) i 0) + nth R0 (nth (0, [::]) wd t).2 0 * rf_at rf t | t <- iota (size rows - k) k], None).
      move/(_ (size rows) (leqnn _)). by rewrite subnn drop0.
    elim=> [|k IH] Hk; first by rewrite subn0 drop_size.
    have Ht : (size rows - k.+1 < size rows)%N by lia. set t := (size rows - k.+1)%N in Ht *.
    have Et : (size rows - k = t.+1)%N by rewrite /t; lia.
    rewrite (drop_nth 0 Ht) /=. rewrite (nth_error_nth (0, [::])) /=; last by rewrite Hs.
    have Ew := H1 t Ht. case Er: (nth (0, [::]) wd t) Ew => [w [|c [|c' cs]]] //= _.
    have Ecash : (if rf is Some rf0 then do x <- or_raise (List.nth_error rf0 t) IndexError; Ok [:: x] else Ok [:: 0]) = Ok [:: rf_at rf t].
      case: rf Hrf {IH} => [l|] // Hrf. by rewrite (nth_error_nth R0) //; apply: leq_trans Ht _; exact: Hrf.
    rewrite Ecash /= -Et IH; last lia. rewrite Et. congr (_ :: _, _). by rewrite big_seq1.
  Qed.

  (** ** Histories. *)
  Lemma backtest_frame (solve : solver_t n) W T a : let T' := (backtest solve W T a).1.2 in
    t_returns T' = t_returns T /\ t_times T' = t_times T /\ t_Sigmas T' = t_Sigmas T /\ t_rhats T' = t_rhats T /\ t_sigma_hats T' = t_sigma_hats T /\
    t_L_inv T' = t_L_inv T /\ t_ws_diluted T' = t_ws_diluted T /\ (t_diluted T -> t_diluted T') /\ (t_ws T <> None -> t_ws T' <> None) /\
    t_rets T' = t_rets T /\ t_Vs T' = t_Vs T /\ t_adjust T' = a_adjust a /\ t_type T' = Some (a_type a).
  Proof.
    rewrite /backtest /bt_min_risk /bt_mean_variance /bt_max_diverse /bt_risk_parity /bt_max_sharpe.
    repeat (match goal with |- context [match ?x with _ => _ end] => destruct x eqn:? end; cbn -[mapM worker np_array take_names extend with_env set_mat set_vec limit_cons pmap map]); repeat split=> //; congruence.
  Qed.

  Lemma returns_loop_same T d sd rf : t_diluted T = true -> forall rows t, (returns_loop T t rows d sd rf).1 = T.
  Proof.
    move=> Hd. elim=> [|r rows IH] t //=. case: (t_ws T) => [ws|] //. rewrite Hd.
    case: d IH => IH.
    - case E: (match t_ws_diluted T with Some _ => _ | None => _ end) => [w|ex] //. case: (bind _ _) => [x|ex] //.
      have := IH t.+1. by case: (returns_loop _ _ _ _ _ _) => T' [xs e] /= ->.
    - case: (or_raise _ _) => [w|ex] //. case: (bind _ _) => [x|ex] //.
      have := IH t.+1. by case: (returns_loop _ _ _ _ _ _) => T' [xs e] /= ->.
  Qed.
  Lemma total_returns_same T d sd rf : t_diluted T = true ->
    (get_total_returns T d sd rf).1 = T \/ exists xs, get_total_returns T d sd rf = (set_rets xs T, None).
  Proof.
    move=> Hd. rewrite /get_total_returns. have := returns_loop_same d sd rf Hd (t_returns T) 0%N.
    case: (returns_loop _ _ _ _ _ _) => T' [xs [ex|]] /= ->; [by left|by right; exists xs].
  Qed.

  (** The trader keeps its first diluted weights. *)
  Definition kept T T' : Prop := t_diluted T' = true /\ t_ws_diluted T' = t_ws_diluted T /\ t_returns T' = t_returns T /\ (t_ws T <> None -> t_ws T' <> None).
  Lemma do_op_kept (solve : solver_t n) W T o : t_diluted T = true -> kept T (do_op solve (W, T) o).2.
  Proof.
    move=> Hd. case: o => [a|d sd rf ex|sd|sd] /=.
    - have [H1 [_ [_ [_ [_ [_ [H2 [H3 [H4 _]]]]]]]]] := backtest_frame solve W T a. split=> //. exact: H3.
    - rewrite /get_metrics. have [H|[xs H]] := total_returns_same d sd rf Hd.
      + case: (get_total_returns _ _ _ _) H => T' [e|] /= ->; first by split. rewrite /get_portfolio_growth. by case: (t_rets T) => [r|] /=.
      + by rewrite H /=.
    - by rewrite /dilute_with_cash Hd.
    - rewrite /get_risk_adj_returns. case: (t_rets T) => [r|] //=. by rdecE H.
  Qed.
  Lemma history_kept (solve : solver_t n) ops W T : t_diluted T = true -> kept T (history solve (W, T) ops).2.
  Proof.
    elim: ops W T => [|o ops IH] W T Hd; first by split. rewrite /history /= -/(history solve (do_op solve (W, T) o) ops).
    have := do_op_kept solve W o Hd. case: (do_op _ _ _) => W' T' /= [K1 [K2 [K3 K4]]]. have [L1 [L2 [L3 L4]]] := IH W' T' K1.
    split=> //. split; first by rewrite L2. split; first by rewrite L3. by move=> H; apply: L4; exact: K4.
  Qed.

  (** After a volatility-controlled backtest the trader cannot be evaluated with cash any more. *)
  Lemma lost_metrics T sd rf ex : t_diluted T = true -> t_ws_diluted T = None -> (0 < size (t_returns T))%N -> (get_metrics T true sd rf ex).2 = Raise AttributeError.
  Proof.
    move=> Hd Hw Hr. rewrite /get_metrics /get_total_returns. case E: (t_returns T) Hr => [|r rows] //= _. case: (t_ws T) => [ws|] //=. by rewrite Hd Hw.
  Qed.
  Lemma vol_cont_raises (solve : solver_t n) W T a : a_type a = VolCont -> (backtest solve W T a).2 <> None.
  Proof.
    move=> E. rewrite /backtest /bt_min_risk E.
    repeat (match goal with |- context [match ?x with _ => _ end] => destruct x eqn:? end; cbn -[mapM worker np_array take_names extend with_env set_mat set_vec limit_cons pmap map]); by [].
  Qed.
  Lemma vol_cont_state (solve : solver_t n) W T a sd : solve_ok solve -> (forall f P, solve f P <> Failed n) -> trader_ok T -> well_formed W ->
    a_type a = VolCont -> a_speedup a = false -> a_rhos a = None -> a_sigma_des a = Some sd -> consistent W (a_cons a) -> (exists w : vec, portfolio (a_limits a) w) ->
    (backtest solve W T a).2 = Some ValueError /\ t_diluted (backtest solve W T a).1.2 = true /\ t_ws (backtest solve W T a).1.2 = t_ws T.
  Proof.
    move=> Hso Htot HT HW Hty Hsp Hr Hsd Hc Hp.
    pose a0 := mkArgs MinRisk (a_cons a) None (a_adjust a) (a_limits a) false None (a_rhos a).
    rewrite /backtest Hr Hty /bt_min_risk Hty Hsp /=. have Hok := size_L HT. have Hsh := size_sh HT. have [_ [_ [Hpos _]]] := HT.
    case EL: (t_L_inv T) => [|L0 Ls]; first by rewrite EL /= in Hok; rewrite -Hok in Hpos.
    case Es: (t_sigma_hats T) => [|s0 ss]; first by rewrite Es /= in Hsh; rewrite -Hsh in Hpos.
    rewrite eqxx. set x := w_next W. set own := c_budget false x :: _. set cons := _ ++ own.
    have Hw e : exists s, worker solve (obj_min_risk None x) cons e x = Ok s.
      rewrite /worker /prob_solve. have := Htot (obj_min_risk None x e) (all_hold cons e). by case: (solve _ _) => //; eexists.
    have [s1 ->] := Hw (set_mat (w_env W) x.+1 L0). rewrite -EL.
    set e := set_mat (w_env W) x.+1 L0.
    have He : env_below x (w_env W) e by apply: env_mat; lia.
    have [|sols Em] := @mapM_ok _ _ (fun L => worker solve (obj_min_risk None x) cons (set_mat e x.+1 L) x) (t_L_inv T); first by move=> i d _; exact: Hw.
    rewrite -/e -/(mapM _ (t_L_inv T)).
    have Hall : all isSome sols.
      have [Hsz Hn] := mapM_nth Em. apply/(all_nthP None) => t; rewrite Hsz => Ht. have := Hn t 0 None Ht. rewrite Hok in Ht.
      have := @day_worker n solve W T a0 e t Hso HT HW _ He _ Ht. cbv zeta. rewrite -/x -/own -/cons => /(_ ltac:(done)) /(_ ltac:(done)) Hd Hx.
      move: Hd. rewrite /a_kap /= Hx. by case: (nth _ _ _) => // -[].
    move: Em. rewrite EL /= => ->. by rewrite /np_array Hall /= Hsd Hall.
  Qed.
End Hist.
