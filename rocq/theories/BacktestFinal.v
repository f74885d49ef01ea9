(** * Proofs about portfolio_backtests.py: errors, no look-ahead, the constructor and the tables. *)
From Coq Require Import Reals ZArith String List Lia Lra Classical.
Set Warnings "-notation-overridden,-ambiguous-paths".
From mathcomp Require Import all_ssreflect all_algebra zify.
From Verif Require Import RStruct MatR Num Py Spec ListFacts Combination Trader SpecTrader TraderOpt TraderBt TraderPort TraderMain TraderHist TraderFinal Backtests SpecBt BacktestProps BacktestMain BacktestKinds.
Set Implicit Arguments.
Unset Strict Implicit.
Unset Printing Implicit Defensive.
Import GRing.Theory.
Local Open Scope ring_scope.
Delimit Scope R_scope with re.
Delimit Scope Z_scope with z.

Section Final.
  Context (n : nat).
  Notation vec := 'cV[R]_n.
  Implicit Types (W : world n) (T : trader n) (B : pbt n).

  (** ** _get_causal. *)
  Lemma causal_main (f : rframe n) Sg a b mus rt St mt : good_frame f -> get_causal f Sg a b mus = Ok (rt, St, mt) ->
    increasing rt.1.1 /\ rt.1.2 = f.1.2 /\ size rt.2 = size rt.1.1 /\ (forall t r, List.In (t, r) (zip rt.1.1 rt.2) <-> traded f a b t r) /\
    map fst St = rt.1.1 /\ (forall t S, List.In (t, S) St -> dict_get Z.eqb Sg t = Some S) /\
    match mus, mt with
    | None, None => True
    | Some m, Some g => g.1.1 = rt.1.1 /\ size g.2 = size rt.1.1 /\ (rt.1.1 <> [::] -> g.1.2 = m.1.2) /\ forall t r, List.In (t, r) (zip g.1.1 g.2) -> dict_get Z.eqb (zip m.1.1 m.2) t = Some r
    | _, _ => False
    end.
  Proof.
    move=> Hf E. have [-> [EF [ES EM]]] := causal_inv Hf E. split; first exact: kept_inc. split=> //. split; first by rewrite !size_map.
    split; first by move=> t r; rewrite zip_map; exact: In_kept. split=> //. split=> //.
    case: mus mt E EM => [m|] [g|] // E [l [-> [El Hl]]] /=. split=> //. split; first by rewrite size_map -(size_map fst l) El. split; first by case: (kept f a b).
    move=> t r. rewrite -El zip_fst_snd. exact: Hl.
  Qed.
  Lemma causal_shift (f : rframe n) Sg a b mus rt St mt : good_frame f -> (forall q i, List.In q f.2 -> q i 0 <> None) ->
    get_causal f Sg a b mus = Ok (rt, St, mt) ->
    let w := [seq r <- zip f.1.1 f.2 | Z.leb a r.1 && Z.leb r.1 b] in
    rt.1.1 = take (size w).-1 (map fst w) /\ map (fun r : vec => \col_i Some (r i 0)) rt.2 = behead (map snd w).
  Proof.
    move=> [Hn [Hs Hi]] Hc E w. have E0 : map fst (items f) = f.1.1 by apply: map_fst_zip.
    have [-> [_ _]] := causal_inv (conj Hn (conj Hs Hi)) E. have [w' [E1 E2]] := slice_kept a b Hn Hs Hi. rewrite /loc_slice E0 inc_sorted // in E1. case: E1 => E1.
    rewrite -/w in E1. have Hw : forall p, List.In p w -> complete p.2.
      move=> p /In_filter [Hp _]. apply/forallP => i. have : List.In p.2 f.2. move: Hp. case: (p) => t q /In_zip [j [_ Hj]]. exact: List.nth_error_In Hj.
      move=> /(Hc _ i). by case: (p.2 i 0).
    rewrite -E2 -E1 /= {E E1 E2} shift_consec //. have -> : [seq p <- consec w | complete p.2.2] = consec w.
      elim: w {w'} Hw => [//|x [|y w] IH] Hw //. have -> : consec (x :: y :: w) = (x, y) :: consec (y :: w) by []. rewrite /= Hw; last by right; left. f_equal. apply: IH => p Hp. apply: Hw. by right.
    split.
    - clear. elim: w => [//|x [|y w] IH] //. have -> : consec (x :: y :: w) = (x, y) :: consec (y :: w) by []. by rewrite /= IH.
    - elim: w {w'} Hw => [//|x [|y w] IH] Hw //. have -> : consec (x :: y :: w) = (x, y) :: consec (y :: w) by []. rewrite /= IH /=; last by move=> p Hp; apply: Hw; right.
      congr cons. apply/colP => i. rewrite !mxE. have := Hw y ltac:(right; left; reflexivity) => /forallP /(_ i). by case: (y.2 i 0).
  Qed.

  (** A date without a forecast. *)
  Lemma loop_inv (solve : solver_t n) B k covs i acc W W' d : bt_loop solve W B k i covs acc = (W', Ok d) ->
    forall j Sg, List.nth_error covs j = Some Sg -> exists T, make B k (i + j) Sg = Ok T.
  Proof.
    elim: covs i acc W => [|S covs IH] i acc W; first by move=> _ [].
    rewrite /= -/(make B k i S). case E : (make B k i S) => [T|] //. case: (backtest _ _ _ _) => [[W1 T1] [e|]] //. case: (List.nth_error _ _) => [nm|] // H [|j] Sg.
    - case=> <-. exists T. by rewrite addn0.
    - move=> /= Hj. have [T0] := IH _ _ _ H _ _ Hj. rewrite addSnnS. by exists T0.
  Qed.
  Lemma missing_main (solve : solver_t n) B k W i Sg t r : good_frame (b_returns B) -> List.nth_error (b_covs B) i = Some Sg ->
    traded (b_returns B) (b_start B) (b_end B) t r -> dict_get Z.eqb Sg t = None -> forall d, (run_backtest solve W B k).2 <> Ok d.
  Proof.
    move=> Hf Hi Ht H d. case E : (run_backtest _ _ _ _) => [W' [d'|]] //= _. have [T] := loop_inv E Hi. rewrite add0n /make.
    case: (mus_of _ _ _) => [mus|] //=. by rewrite (causal_missing mus Hf Ht H).
  Qed.

  (** ** No look-ahead. *)
  Lemma no_look_ahead l B1 B2 d1 d2 i1 i2 Sg1 Sg2 name1 name2 T1 T2 j1 j2 t S :
    let ok := fun (_ : nat) (_ : Z) S => plain (minimiser (vol S) (@portfolio n l)) in
    results B1 d1 ok -> results B2 d2 ok ->
    List.nth_error (b_covs B1) i1 = Some Sg1 -> List.nth_error (b_covs B2) i2 = Some Sg2 ->
    List.nth_error (b_names B1) i1 = Some name1 -> List.nth_error (b_names B2) i2 = Some name2 ->
    dict_get String.eqb d1 name1 = Some T1 -> dict_get String.eqb d2 name2 = Some T2 ->
    List.nth_error (t_times T1) j1 = Some t -> List.nth_error (t_times T2) j2 = Some t ->
    dict_get Z.eqb Sg1 t = Some S -> dict_get Z.eqb Sg2 t = Some S -> spd S ->
    exists u, (exists ws, t_ws T1 = Some ws /\ List.nth_error ws j1 = Some (Some (u, [::]))) /\ exists ws, t_ws T2 = Some ws /\ List.nth_error ws j2 = Some (Some (u, [::])).
  Proof.
    move=> ok [_ R1] [_ R2] Hc1 Hc2 Hn1 Hn2 Hd1 Hd2 Hj1 Hj2 HS1 HS2 HS.
    have [nm1 [T1' [A1 [A2 [_ [ws1 [A3 [_ A4]]]]]]]] := R1 _ _ Hc1. rewrite Hn1 in A1. case: A1 => A1. rewrite -A1 Hd1 in A2. case: A2 => A2. rewrite -A2 in A3 A4.
    have [nm2 [T2' [C1 [C2 [_ [ws2 [C3 [_ C4]]]]]]]] := R2 _ _ Hc2. rewrite Hn2 in C1. case: C1 => C1. rewrite -C1 Hd2 in C2. case: C2 => C2. rewrite -C2 in C3 C4.
    have [S1 [w1 [F1 [F2 [u1 [F3 F4]]]]]] := A4 _ _ Hj1. have [S2 [w2 [G1 [G2 [u2 [G3 G4]]]]]] := C4 _ _ Hj2.
    rewrite HS1 in F1. case: F1 => F1. rewrite HS2 in G1. case: G1 => G1. rewrite -F1 in F4. rewrite -G1 in G4.
    exists u1. split; first by exists ws1; rewrite F2 F3. exists ws2. by rewrite G2 G3 (min_unique HS (@portfolio_mid n l) F4 G4).
  Qed.

  Lemma no_look_ahead_run (solve1 solve2 : solver_t n) W1 W2 W1' W2' l B1 B2 d1 d2 i1 i2 Sg1 Sg2 name1 name2 T1 T2 j1 j2 t :
    solve_ok solve1 -> solve_ok solve2 -> (forall f P, solve1 f P <> Failed n) -> (forall f P, solve2 f P <> Failed n) ->
    well_formed W1 /\ consistent W1 0 -> well_formed W2 /\ consistent W2 0 -> (exists w : vec, portfolio l w) ->
    good_frame (b_returns B1) /\ good_names B1 /\ all_covered B1 -> good_frame (b_returns B2) /\ good_names B2 /\ all_covered B2 ->
    run_backtest solve1 W1 B1 (KMinRisk n l) = (W1', Ok d1) -> run_backtest solve2 W2 B2 (KMinRisk n l) = (W2', Ok d2) ->
    List.nth_error (b_covs B1) i1 = Some Sg1 -> List.nth_error (b_covs B2) i2 = Some Sg2 ->
    List.nth_error (b_names B1) i1 = Some name1 -> List.nth_error (b_names B2) i2 = Some name2 ->
    dict_get String.eqb d1 name1 = Some T1 -> dict_get String.eqb d2 name2 = Some T2 ->
    List.nth_error (t_times T1) j1 = Some t -> List.nth_error (t_times T2) j2 = Some t ->
    dict_get Z.eqb Sg1 t = dict_get Z.eqb Sg2 t ->
    exists u, (exists ws, t_ws T1 = Some ws /\ List.nth_error ws j1 = Some (Some (u, [::]))) /\ exists ws, t_ws T2 = Some ws /\ List.nth_error ws j2 = Some (Some (u, [::])).
  Proof.
    move=> S1 S2 F1 F2 [H1 H1'] [H2 H2'] Hl [G1 [N1 C1]] [G2 [N2 C2]] E1 E2 Hc1 Hc2 Hn1 Hn2 Hd1 Hd2 Hj1 Hj2 HS.
    have [X1 [e1 [X2 [_ X3]]]] := min_main S1 F1 H1 H1' Hl G1 N1 C1. rewrite E1 in X2. case: X2 => _ X2. rewrite -X2 in X3.
    have [Y1 [e2 [Y2 [_ Y3]]]] := min_main S2 F2 H2 H2' Hl G2 N2 C2. rewrite E2 in Y2. case: Y2 => _ Y2. rewrite -Y2 in Y3.
    have [nm [T1' [A1 [A2 [A3 _]]]]] := (proj2 X3) _ _ Hc1. rewrite Hn1 in A1. case: A1 => A1. rewrite -A1 Hd1 in A2. case: A2 => A2. rewrite -A2 in A3.
    have [S [HS1 Hspd]] : exists S, dict_get Z.eqb Sg1 t = Some S /\ spd S.
      have [Q1 [Q2 [_ [Q4 _]]]] := A3. have [r Hr] : exists r, traded (b_returns B1) (b_start B1) (b_end B1) t r.
        exists (nth 0 (t_returns T1) j1). apply/Q4/In_zip. exists j1. split=> //. apply: nth_error_nth. by rewrite Q2 (lt_of_nth Hj1).
      exact: (proj1 (C1 _ _ Hc1)) Hr.
    apply: (no_look_ahead X3 Y3 Hc1 Hc2 Hn1 Hn2 Hd1 Hd2 Hj1 Hj2 HS1 _ Hspd). by rewrite -HS.
  Qed.

  (** ** What the weights earn. *)
  Lemma earned_main (f : rframe n) Sg a b T (ws : seq vec) sd rf : causal_trader f Sg a b T -> trades_cash (t_type T) = false ->
    t_ws T = Some [seq Some (w, [::]) | w <- ws] -> size ws = size (t_times T) -> (forall l, rf = Some l -> (size (t_times T) <= size l)%N) ->
    exists rets, get_total_returns T false sd rf = (set_rets rets T, None) /\ size rets = size (t_times T) /\
      forall j t, List.nth_error (t_times T) j = Some t -> exists r, traded f a b t r /\ nth R0 rets j = \sum_i nth 0 ws j i 0 * r i 0.
  Proof.
    move=> [H1 [H2 [H3 [H4 H5]]]] Hty Hws Hs Hrf. pose ws' := [seq (w, [::] : seq R) | w <- ws].
    have E : t_ws T = Some [seq Some w | w <- ws'] by rewrite Hws /ws' -map_comp.
    rewrite (plain_returns sd (rf := rf) E) ?H2 //; last 2 first.
      by rewrite /ws' size_map. by move=> w /mapP [w0 _ ->]; rewrite Hty.
    eexists. split; first by reflexivity. split; first by rewrite /returns_of size_map size_iota.
    move=> j t Hj. have Hjs := lt_of_nth Hj. exists (nth 0 (t_returns T) j). split.
      apply/H4/In_zip. exists j. split=> //. apply: nth_error_nth. by rewrite H2.
    rewrite /returns_of (nth_map 0%N) ?size_iota ?H2 // nth_iota ?H2 // add0n /ws' (nth_map 0) ?Hs // /day_return /= big_nil. rewrite -[LHS]/(Rplus _ (Rmult 0 _)) Rmult_0_l Rplus_0_r. by [].
  Qed.

  Lemma in_dict_set V (d : seq (string * V)) k v x : List.In x (dict_set String.eqb d k v) -> x.2 = v \/ List.In x d.
  Proof.
    elim: d => [|[k' v'] d IH] /=; first by case=> [<-|//]; left. case: (String.eqb k k') => /= -[<-|H]; [by left|by right; right|by right; left|]. case: (IH H); by [left|right; right].
  Qed.
  Lemma get_In V (d : seq (string * V)) k v : dict_get String.eqb d k = Some v -> exists k', List.In (k', v) d.
  Proof. elim: d => [|[k' v'] d IH] //=. case: (String.eqb k k') => [[->]|/IH [k'' H]]; [by exists k'; left|by exists k''; right]. Qed.
  Lemma loop_types (solve : solver_t n) B k covs i acc W W' d : bt_loop solve W B k i covs acc = (W', Ok d) ->
    (forall x, List.In x acc -> t_type x.2 = Some (a_type (args_of k))) -> forall x, List.In x d -> t_type x.2 = Some (a_type (args_of k)).
  Proof.
    elim: covs i acc W => [|S covs IH] i acc W; first by case=> _ <-.
    rewrite /= -/(make B k i S). case E : (make B k i S) => [T|] //. have := backtest_frame solve W T (args_of k).
    case: (backtest _ _ _ _) => [[W1 T1] [e|]] //= Hfr. case: (List.nth_error _ _) => [nm|] // H Hacc. apply: (IH _ _ _ H). move=> x Hx. have [->|/Hacc] := in_dict_set Hx => //. tauto.
  Qed.
  Lemma all_some (l : seq (wrow n)) : (forall j w, List.nth_error l j = Some w -> plain (fun _ => True) w) -> exists ws, l = [seq Some (w, [::]) | w <- ws].
  Proof.
    elim: l => [|x l IH] H; first by exists [::]. have [u [Eu _]] := H 0%N x erefl. have [|ws Ews] := IH; first by move=> j w Hj; exact: (H j.+1 w Hj).
    exists (u :: ws). by rewrite Eu Ews.
  Qed.
  Lemma earned_run (solve : solver_t n) W W' B k d ok i Sg name T sd rf : run_backtest solve W B k = (W', Ok d) -> (if k is KMeanVariance _ _ _ then False else True) ->
    results B d ok -> (forall i t S w, ok i t S w -> plain (fun _ => True) w) ->
    List.nth_error (b_covs B) i = Some Sg -> List.nth_error (b_names B) i = Some name -> dict_get String.eqb d name = Some T ->
    (forall l, rf = Some l -> (size (t_times T) <= size l)%N) ->
    exists rets ws, get_total_returns T false sd rf = (set_rets rets T, None) /\ t_ws T = Some ws /\ size rets = size (t_times T) /\
      forall j t, List.nth_error (t_times T) j = Some t -> exists u r, List.nth_error ws j = Some (Some (u, [::])) /\
        traded (b_returns B) (b_start B) (b_end B) t r /\ nth R0 rets j = \sum_i u i 0 * r i 0.
  Proof.
    move=> E Hk [_ HR] Hok Hi Hn Hd Hrf. have [nm [T' [A1 [A2 [A3 [ws [A4 [A5 A6]]]]]]]] := HR _ _ Hi. rewrite Hn in A1. case: A1 => A1. rewrite -A1 Hd in A2. case: A2 => A2. rewrite -A2 in A3 A4 A5 A6.
    have Hty : trades_cash (t_type T) = false.
      have [k' Hin] := get_In Hd. have := loop_types E (fun x (H : List.In x [::]) => False_ind _ H) Hin => /= ->. by case: k Hk {E}.
    have [us Eus] : exists us, ws = [seq Some (w, [::]) | w <- us].
      apply: all_some => j w Hj. have Hj' : (j < size (t_times T))%N. have : (j < size ws)%N := lt_of_nth Hj. by rewrite [size ws]A5.
      case Et : (t_times T) Hj' => [|t0 ts] // Hj'. rewrite -Et in Hj'. have [S [w' [_ [B2 B3]]]] := A6 _ _ (nth_error_nth t0 Hj'). rewrite Hj in B2. case: B2 => ->. exact: Hok B3.
    rewrite Eus in A4 A5. have Esz : size us = size (t_times T) by rewrite -[RHS]A5; change (List.length ?l) with (size l); rewrite size_map.
    have [rets [R1 [R2 R3]]] := earned_main sd A3 Hty A4 Esz Hrf. exists rets, ws. split=> //. split; first by rewrite Eus. split=> // j t Hj. have [r [R4 R5]] := R3 _ _ Hj.
    exists (nth 0 us j), r. split=> //. rewrite Eus List.nth_error_map (nth_error_nth 0) //. by rewrite Esz (lt_of_nth Hj).
  Qed.

  (** ** The constructor. *)
  Lemma mem_ZP t l : mem_Z t l <-> List.In t l.
  Proof.
    rewrite /mem_Z. elim: l => //= x l IH. split.
    - move=> /orP [/Z.eqb_eq ->|/IH]; by [left|right].
    - move=> [->|/IH ->]; by rewrite ?Z.eqb_refl ?orbT.
  Qed.
  Lemma keys_inP (d : seq (Z * 'M[R]_n)) l : keys_in d l <-> forall t, List.In t (map fst d) -> List.In t l.
  Proof.
    rewrite /keys_in. elim: d => [|x d IH] /=; first by split. split.
    - move=> /andP [/mem_ZP H /IH H'] t [<-|] //. exact: H'.
    - move=> H. apply/andP. split; first by apply/mem_ZP; apply: H; left. apply/IH => t Ht. apply: H. by right.
  Qed.
  Lemma all_In A (p : A -> bool) l : all p l <-> forall x, List.In x l -> p x.
  Proof.
    elim: l => [|x l IH] /=; first by split. split.
    - move=> /andP [H /IH H'] y [<-|] //. exact: H'.
    - move=> H. apply/andP. split; first by apply: H; left. apply/IH => y Hy. apply: H. by right.
  Qed.
  Lemma construct_main returns covs names means s e B : new_backtest (n := n) returns covs names means s e = Ok B <->
    (forall Sg t, List.In Sg covs -> List.In t (map fst Sg) -> List.In t returns.1.1) /\
    exists covs' c, covs = rcons covs' c /\
      (forall ms m t, means = Some ms -> List.In m ms -> List.In t (map fst c) -> List.In t m.1.1) /\
      (forall t, s = Some t -> List.In t (map fst c)) /\ (forall t, e = Some t -> List.In t (map fst c)) /\
      exists t0 t1, (forall t, s = Some t -> t0 = t) /\ (s = None -> List.hd_error (map fst c) = Some t0) /\
        (forall t, e = Some t -> t1 = t) /\ (e = None -> List.hd_error (rev (map fst c)) = Some t1) /\
        B = mkPbt returns covs means names t0 t1.
  Proof.
    have Hall : all (fun d => keys_in d returns.1.1) covs <-> forall Sg t, List.In Sg covs -> List.In t (map fst Sg) -> List.In t returns.1.1.
      rewrite all_In. split=> [H Sg t H1|H Sg H1]; [by move/(_ _ H1)/keys_inP: H => H; exact: H|apply/keys_inP => t; exact: H].
    rewrite /new_backtest. case: (boolP (all _ _)) => [/Hall Ha|Ha] /=; last first.
      split=> // [[H _]]. by move/Hall: H Ha => ->.
    case: covs Ha {Hall} => [|c0 cs] Ha; first by split=> // [[_ [[|? ?] [? [? _]]]]].
    rewrite lastI in Ha *. set c := last c0 cs. set cs' := belast c0 cs.
    have Hmean : is_true (if means is Some ms then all (fun m : frame n => keys_in c m.1.1) ms else true) <-> forall ms m t, means = Some ms -> List.In m ms -> List.In t (map fst c) -> List.In t m.1.1.
      case: means => [ms|]; last by split. rewrite all_In. split=> [H ms' m t [<-] H1|H m H1]; [by move/(_ _ H1)/keys_inP: H => H; exact: H|apply/keys_inP => t; exact: H].
    have Hdate o : date_in o c <-> forall t, o = Some t -> List.In t (map fst c).
      case: o => [t|]; last by split. rewrite /date_in mem_ZP. split=> [H t' [<-]|/(_ _ erefl)] //.
    case: (boolP (if means is Some ms then all (fun m : frame n => keys_in c m.1.1) ms else true)) => [/Hmean H1|H1] /=; last first.
      split=> // [[_ [cs2 [c2 [/rcons_inj [_ <-] [/Hmean H _]]]]]]. by rewrite H in H1.
    case: (boolP (date_in s c)) => [/Hdate H2|H2] /=; last first.
      split=> // [[_ [cs2 [c2 [/rcons_inj [_ <-] [_ [/Hdate H _]]]]]]]. by rewrite H in H2.
    case: (boolP (date_in e c)) => [/Hdate H3|H3] /=; last first.
      split=> // [[_ [cs2 [c2 [/rcons_inj [_ <-] [_ [_ [/Hdate H _]]]]]]]]. by rewrite H in H3.
    have Hlast (kv : Z * 'M[R]_n) d : List.hd_error (rev (map fst (kv :: d))) = Some (last kv d).1.
      rewrite lastI map_rcons rev_rcons. by [].
    split.
    - case Es : (if s is Some t then Ok t else _) => [t0|] //=. case Ee : (if e is Some t then Ok t else _) => [t1|] //= [<-]. split=> //. exists cs', c. split; first by []. split; first exact: H1. split; first exact: H2. split; first exact: H3.
      exists t0, t1. case: (s) Es {H2} => [s0 [->]|]; case: (e) Ee {H3} => [e0 [->]|].
      + split=> [? [] //|]. split=> //. by split=> [? [] //|].
      + case Ec : c => [|kv d] //= [<-]. split=> [? [] //|]. split=> //. split=> //. split=> //. by rewrite Hlast.
      + case Ec : c => [|[k S] d] //= [<-]. split=> //. split=> //. by split=> [? [] //|].
      + case Ec : c => [|[k S] d] //= [<-] [<-]. split=> //. split=> //. split=> //. split=> // _. by rewrite (Hlast (k, S)).
    - move=> [_ [cs2 [c2 [/rcons_inj [_ <-] [_ [_ [_ [t0 [t1 [S1 [S2 [E1 [E2 ->]]]]]]]]]]]]].
      have -> : (if s is Some t then Ok t else if c is (t, _) :: _ then Ok t else Raise IndexError) = Ok t0.
        case: (s) S1 S2 => [t /(_ _ erefl) ->|_ /(_ erefl)] //. by case: (c) => [|[k S] d] //= [->].
      have -> : (if e is Some t then Ok t else if c is kv :: d then Ok (last kv d).1 else Raise IndexError) = Ok t1.
        case: (e) E1 E2 => [t /(_ _ erefl) ->|_ /(_ erefl)] //. case: (c) => [|kv d] //. rewrite Hlast. by case=> ->.
      by rewrite -lastI.
  Qed.
  Lemma construct_empty returns names means s e : new_backtest (n := n) returns [::] names means s e = Raise UnboundLocalError.
  Proof. by []. Qed.

  (** ** Tables. *)
  Lemma table_main (ms : seq (string * metrics)) m : dict_get String.eqb ms "PRESCIENT"%string = Some m ->
    exists last_name, List.hd_error (rev (map fst ms)) = Some last_name /\
    table_helper ms true = (LBegin :: [seq pct_line kv.1 kv.2 | kv <- ms & ~~ String.eqb kv.1 "PRESCIENT"] ++ [:: LHline; pct_line last_name m; LEnd], None).
  Proof.
    move=> H. rewrite /table_helper H. case: ms H => [//|kv ms] H. exists (last kv ms).1. split; first by rewrite lastI map_rcons rev_rcons.
    by rewrite /= -catA.
  Qed.
  Lemma dict_none V (d : seq (string * V)) k : dict_get String.eqb d k = None <-> ~ List.In k (map fst d).
  Proof.
    elim: d => [|[k' m] d IH] /=; first by split=> // _ [].
    case E : (String.eqb k k'); first by move/String.eqb_eq: E => <-; split=> // H; case: H; left.
    rewrite IH. split=> H; [move=> [E2|//]|move=> H2; apply: H; by right]. by rewrite E2 String.eqb_refl in E.
  Qed.
  Lemma target_unique st st' : (forall s, st' = Some s <-> st = Some s /\ s <> 0%re) -> target st = st'.
  Proof.
    rewrite /target. case: st => [s|] H; last by case: st' H => // s' /(_ s') [/(_ erefl) []].
    case: Req_EM_T => Hs; last by symmetry; apply/H. case: st' H => // s' /(_ s') [/(_ erefl) [[<-]]]. by [].
  Qed.
  Lemma metrics_loop traders sigma_tar sigma rf ex res : (forall s, sigma = Some s <-> sigma_tar = Some s /\ s <> 0%re) ->
    List.Forall2 (fun (x : string * trader n) (y : trader n * metrics) =>
      get_metrics x.2 (isSome sigma) sigma rf ex = (y.1, Ok y.2)) traders res ->
    let ms := zip (map fst traders) (map snd res) in
    (forall p, create_table traders sigma_tar rf ex p = (zip (map fst traders) (map fst res), table_helper ms p)) /\
    table_helper ms false = (LBegin :: [seq pct_line kv.1 kv.2 | kv <- ms & ~~ String.eqb kv.1 "PRESCIENT"] ++ [:: LHline; LEnd], None) /\
    (List.In "PRESCIENT"%string (map fst traders) <-> (table_helper ms true).2 = None).
  Proof.
    move=> Hs H ms. have E := target_unique Hs. rewrite -E in H => {Hs}. split; [|split].
    - move=> p. rewrite /create_table. have -> : table_metrics traders sigma_tar rf ex = (zip (map fst traders) (map fst res), Ok (zip (map fst traders) (map snd res))); last by [].
      rewrite {ms}. elim: H => [//|[nm T] [T' m] l l' E1 _ IH] /=. rewrite /= in E1. by rewrite E1 IH.
    - by rewrite /table_helper /= -catA.
    - have -> : map fst traders = map fst ms.
        rewrite /ms. elim: H {ms} => [//|x y l l' _ _ IH] /=. by rewrite -IH.
      have Hd := dict_none ms "PRESCIENT"%string. rewrite /table_helper.
      clear E H; case E : (dict_get _ _ _) => [m|].
      + case: ms E Hd => [//|kv ms] E Hd /=. split=> // _. apply: NNPP => H. by move/Hd: H; rewrite E.
      + split=> //= H. by move/Hd: E.
  Qed.
End Final.
