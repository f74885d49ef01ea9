(** * Backtests: what the solved problems say about the weights. *)
From Coq Require Import Reals ZArith String List Lia Lra Classical.
Set Warnings "-notation-overridden,-ambiguous-paths".
From mathcomp Require Import all_ssreflect all_algebra.
From mathcomp.zify Require Import zify_ssreflect.
From Verif Require Import RStruct MatR Num Py Trader SpecTrader TraderLists TraderOpt.
Set Implicit Arguments.
Unset Strict Implicit.
Unset Printing Implicit Defensive.
Import GRing.Theory.
Local Open Scope ring_scope.
Delimit Scope R_scope with re.

Section Bt.
  Context (n : nat).
  Notation vec := 'cV[R]_n.
  Implicit Types (W : world n) (T : trader n) (a : bt_args n) (e : penv n) (v : val n).

  Lemma all_hold_cat (c1 c2 : seq (con n)) e v : all_hold (c1 ++ c2) e v <-> all_hold c1 e v /\ all_hold c2 e v.
  Proof. rewrite /all_hold. exact: Forall_app. Qed.
  Lemma all_hold_cons (c : con n) cs e v : all_hold (c :: cs) e v <-> c e v /\ all_hold cs e v.
  Proof. rewrite /all_hold. split; [by move=> H; inversion H|by case=> *; constructor]. Qed.
  Lemma all_hold_nil e v : all_hold [::] e v.
  Proof. exact: Forall_nil. Qed.
  Lemma all_hold_below x (cs : seq (con n)) e e' v v' : (forall c, List.In c cs -> con_below x c) -> env_below x e e' -> same_below x v v' ->
    all_hold cs e v -> all_hold cs e' v'.
  Proof.
    move=> Hb He Hv. rewrite /all_hold !Forall_forall => H c Hc. exact: (Hb c Hc e e' v v' He Hv (H c Hc)).
  Qed.

  Definition upd v x u : val n := fun y => if (y == x)%N then u else v y.
  Lemma upd_same v x u : upd v x u x = u.
  Proof. by rewrite /upd eqxx. Qed.
  Lemma upd_below v x u : same_below x v (upd v x u).
  Proof. move=> y Hy. rewrite /upd. by case: eqP => // E; rewrite E ltnn in Hy. Qed.

  (** A problem whose old constraints do not mention the new variable. *)
  Section Problem.
    Variables (solve : solver_t n) (x : nat) (old own : seq (con n)) (e : penv n) (f : obj n) (g : vec * R -> R) (Q : vec * R -> Prop).
    Hypothesis Hsolve : solve_ok solve.
    Hypothesis Hold : forall c, List.In c old -> con_below x c.
    Hypothesis Hown : forall v, all_hold own e v <-> Q (v x).
    Hypothesis Hf : forall v, f e v = g (v x).

    Lemma old_upd v u : all_hold old e v -> all_hold old e (upd v x u).
    Proof. apply: (all_hold_below Hold) => //. exact: upd_below. Qed.
    Lemma worker_solved u o : worker solve f (old ++ own) e x = Ok (Some (u, o)) ->
      minimiser g Q u /\ o = g u /\ exists v, all_hold old e v.
    Proof.
      rewrite /worker /prob_solve. have := Hsolve (f e) (all_hold (old ++ own) e). case: solve => // v [/all_hold_cat [H1 H2] Hmin] [] <- <-.
      rewrite Hf. split; last by split=> //; exists v. split; first by apply/Hown.
      move=> u' Hu'. rewrite -[u'](upd_same v x) -!Hf. apply: Hmin. apply/all_hold_cat. split; first exact: old_upd.
      apply/Hown. by rewrite upd_same.
    Qed.
    Lemma worker_none : worker solve f (old ++ own) e x = Ok None -> (exists v, all_hold old e v) -> ~ exists u, minimiser g Q u.
    Proof.
      rewrite /worker /prob_solve. have := Hsolve (f e) (all_hold (old ++ own) e). case: solve => // Hno _ [v Hv] [u [HQ Hmin]].
      apply: Hno. exists (upd v x u). split.
      - apply/all_hold_cat. split; first exact: old_upd. apply/Hown. by rewrite upd_same.
      - move=> v' /all_hold_cat [_ /Hown H']. rewrite !Hf upd_same. exact: Hmin.
    Qed.
    Lemma worker_poison : ~ (exists v, all_hold old e v) -> worker solve f (old ++ own) e x = Ok None \/ worker solve f (old ++ own) e x = Raise SolverError.
    Proof.
      move=> Hno. rewrite /worker /prob_solve. have := Hsolve (f e) (all_hold (old ++ own) e). case: solve => [v|_|_]; [|by left|by right].
      move=> [/all_hold_cat [H _] _]. exfalso. apply: Hno. by exists v.
    Qed.
    Lemma worker_total : solve (f e) (all_hold (old ++ own) e) <> Failed n -> exists s, worker solve f (old ++ own) e x = Ok s.
    Proof. rewrite /worker /prob_solve. case: solve => [v _|_|] //; by eexists. Qed.
  End Problem.

  (** The limits. *)
  Lemma limit_consP (l : limits) x e v : all_hold (@limit_cons n l x) e v <-> within l (v x).1.
  Proof.
    rewrite /limit_cons !all_hold_cat /within.
    have H (o : option R) (c : R -> con n) : all_hold (opt_con o c) e v <-> forall b, o = Some b -> c b e v.
      case: o => [b|] /=; last by split=> // _; exact: all_hold_nil.
      rewrite all_hold_cons. split; [by move=> [H _] b' [] <-|by move=> H; split; [exact: H|exact: all_hold_nil]].
    by rewrite !H.
  Qed.
  Lemma own_min_risk (l : limits) x e v : all_hold (@c_budget n false x :: limit_cons n l x) e v <-> portfolio l (v x).1.
  Proof.
    have E : total false (v x) = \sum_i (v x).1 i 0 by exact: addr0.
    by rewrite all_hold_cons limit_consP /c_budget E.
  Qed.

  (** Frame conditions. *)
  Lemma env_mat x e p A : (x <= p)%N -> env_below x e (set_mat e p A).
  Proof. move=> Hp y Hy /=. case: eqP => // E. by rewrite E ltnNge Hp in Hy. Qed.
  Lemma env_vec x e p r : (x <= p)%N -> env_below x e (set_vec e p r).
  Proof. move=> Hp y Hy /=. case: eqP => // E. by rewrite E ltnNge Hp in Hy. Qed.
  Lemma env_refl x e : env_below x e e.
  Proof. by []. Qed.
  Lemma env_trans x e1 e2 e3 : env_below x e1 e2 -> env_below x e2 e3 -> env_below x e1 e3.
  Proof. move=> H1 H2 y Hy. have [-> ->] := H1 y Hy. exact: H2. Qed.
  Lemma env_sym x e1 e2 : env_below x e1 e2 -> env_below x e2 e1.
  Proof. move=> H y Hy. by have [-> ->] := H y Hy. Qed.
  Lemma con_below_mono x y (c : con n) : (x <= y)%N -> con_below x c -> con_below y c.
  Proof. move=> Hxy H e e' v v' He Hv. apply: H; [by move=> z Hz; apply: He; exact: leq_trans Hxy|by move=> z Hz; apply: Hv; exact: leq_trans Hxy]. Qed.

  (** ** Days. *)
  Lemma day_L T L0 t : trader_ok T -> (t < size (t_times T))%N -> get_L_inv (nth 0 (t_Sigmas T) t) = Ok (nth L0 (t_L_inv T) t) /\ spd (nth 0 (t_Sigmas T) t).
  Proof.
    move=> [Hs [_ [_ [_ [Hspd [_ HL]]]]]] Ht. have [_ H] := mapM_nth HL. rewrite -Hs in Ht. split; first exact: H. apply: Hspd. exact: mem_nth.
  Qed.
  Lemma size_L T : trader_ok T -> size (t_L_inv T) = size (t_times T).
  Proof. move=> [Hs [_ [_ [_ [_ [_ HL]]]]]]. have [-> _] := mapM_nth HL. exact: Hs. Qed.
  Lemma size_sh T : trader_ok T -> size (t_sigma_hats T) = size (t_times T).
  Proof. move=> [Hs [_ [_ [_ [_ [-> _]]]]]]. by rewrite size_map. Qed.
  Lemma nth_sh T t : trader_ok T -> (t < size (t_times T))%N -> nth 0 (t_sigma_hats T) t = \col_i sqrt (nth 0 (t_Sigmas T) t i i).
  Proof. move=> [Hs [_ [_ [_ [_ [-> _]]]]]] Ht. by rewrite (nth_map 0) ?Hs. Qed.

  (** ** min_risk and robust_min_risk. *)
  Definition day_obj (kappa : option R) (S : 'M[R]_n) (s w : vec) : R := if kappa is Some k then robust_risk S k s w else vol S w.
  Lemma day_exists kappa S s l : spd S -> (forall k, kappa = Some k -> Rle 0 k) -> (exists w : vec, portfolio l w) -> exists w, minimiser (day_obj kappa S s) (portfolio l) w.
  Proof.
    move=> HS Hk He. case: kappa Hk => [k|] Hk /=.
    - apply: robust_exists => //; [exact: closed_portfolio|exact: Hk].
    - apply: min_exists => //. exact: closed_portfolio.
  Qed.
  Lemma obj_dayE kappa x e v S : p_mat e x.+1 = S -> forall Sg, (forall w, risk S w = vol Sg w) ->
    obj_min_risk kappa x e v = day_obj kappa Sg (p_vec e x.+2) (v x).1.
  Proof.
    move=> HS Sg HV. rewrite /obj_min_risk /day_obj HS HV. case: kappa => [k|]; last exact: addr0.
    rewrite /robust_risk /dotp. have E : (\sum_i p_vec e x.+2 i 0 * absv (v x).1 i 0 = \sum_i p_vec e x.+2 i 0 * Rabs ((v x).1 i 0))%R.
      by apply: eq_bigr => i _; rewrite mxE.
    by rewrite E.
  Qed.

  Definition is_robust a := if a_type a is RobustMinRisk then true else false.
  Definition a_kap a := if is_robust a then a_kappa a else None.
  Definition rows_of (sols : seq (option (vec * R * R))) : seq (wrow n) := [seq (if s is Some s then Some (s.1.1, [::]) else None) | s <- sols].

  Lemma pmap_all (sols : seq (option (vec * R * R))) t d : all isSome sols -> (t < size sols)%N ->
    exists u o, nth None sols t = Some (u, o) /\ nth d (pmap (fun s : option (vec * R * R) => if s is Some s then Some s.2 else None) sols) t = o.
  Proof.
    elim: sols t => [|[[u o]|] sols IH] [|t] //= H Ht; [by exists u, o|exact: IH].
  Qed.
  Lemma size_pmap_all (sols : seq (option (vec * R * R))) : all isSome sols ->
    size (pmap (fun s : option (vec * R * R) => if s is Some s then Some s.2 else None) sols) = size sols.
  Proof. elim: sols => [|[[u o]|] sols IH] //= H. by rewrite IH. Qed.

  Definition min_rows W T a (ws : seq (wrow n)) (ob : seq R) : Prop :=
    (consistent W (a_cons a) /\ (exists w : vec, portfolio (a_limits a) w) /\ size ob = size (t_times T) /\
     forall t, (t < size (t_times T))%N -> exists w, nth None ws t = Some (w, [::]) /\
       minimiser (day_obj (a_kap a) (nth 0 (t_Sigmas T) t) (nth 0 (t_sigma_hats T) 0)) (portfolio (a_limits a)) w /\
       nth 0 ob t = day_obj (a_kap a) (nth 0 (t_Sigmas T) t) (nth 0 (t_sigma_hats T) 0) w) \/
    ((~ consistent W (a_cons a) \/ ~ exists w : vec, portfolio (a_limits a) w) /\ forall t, (t < size (t_times T))%N -> nth None ws t = None).

  Lemma day_worker (solve : solver_t n) W T a e t : solve_ok solve -> trader_ok T -> well_formed W -> (forall k, a_kap a = Some k -> Rle 0 k) ->
    env_below (w_next W) (w_env W) e -> (a_kap a <> None -> p_vec e (w_next W).+2 = nth 0 (t_sigma_hats T) 0) -> (t < size (t_times T))%N ->
    let x := w_next W in let own := @c_budget n false x :: limit_cons n (a_limits a) x in
    let S := nth 0 (t_Sigmas T) t in
    let s := worker solve (obj_min_risk (a_kap a) x) (w_lists W (a_cons a) ++ own) (set_mat e x.+1 (nth 0 (t_L_inv T) t)) x in
    match s with
    | Ok (Some (u, o)) => consistent W (a_cons a) /\ minimiser (day_obj (a_kap a) S (nth 0 (t_sigma_hats T) 0)) (portfolio (a_limits a)) u.1 /\
         o = day_obj (a_kap a) S (nth 0 (t_sigma_hats T) 0) u.1
    | Ok None => ~ consistent W (a_cons a) \/ ~ exists w : vec, portfolio (a_limits a) w
    | Raise ex => ex = SolverError
    end.
  Proof.
    move=> Hso HT HW Hk He Hsig Ht x own S.
    have [HL HS] := day_L 0 HT Ht.
    set e' := set_mat e x.+1 (nth 0 (t_L_inv T) t).
    have He' : env_below x (w_env W) e' by apply: env_trans He _; exact: env_mat.
    have Hold c : List.In c (w_lists W (a_cons a)) -> con_below x c by exact: HW.
    pose Q (u : vec * R) := portfolio (a_limits a) u.1. pose g (u : vec * R) := day_obj (a_kap a) S (nth 0 (t_sigma_hats T) 0) u.1.
    have Hown v : all_hold own e' v <-> Q (v x) by exact: own_min_risk.
    have Hf v : obj_min_risk (a_kap a) x e' v = g (v x).
      rewrite (@obj_dayE _ x e' v (nth 0 (t_L_inv T) t) _ S); first last.
        by move=> w; exact: L_inv_spec. by rewrite /e' /= eqxx.
      rewrite /g. move: Hsig. case: (a_kap a) => [k|] //= Hsig. by rewrite -Hsig.
    have Hcons : (exists v, all_hold (w_lists W (a_cons a)) e' v) <-> consistent W (a_cons a).
      split=> -[v Hv]; exists v; apply: (all_hold_below Hold) Hv => //; exact: env_sym.
    move=> s. case E: s => [[[u o]|]|ex].
    - have [Hm [-> Hc]] := @worker_solved _ _ _ _ e' _ g Q Hso Hold Hown Hf _ _ E. split; first by apply/Hcons. split=> //.
      case: Hm => H1 H2. split=> // y Hy. exact: (H2 (y, 0)).
    - case: (classic (consistent W (a_cons a))) => [Hc|]; last by left. right=> Hw.
      move/Hcons in Hc. apply: (@worker_none _ _ _ _ e' _ g Q Hso Hold Hown Hf E Hc). have [w [Hw1 Hw2]] := day_exists (nth 0 (t_sigma_hats T) 0) HS Hk Hw.
      exists (w, 0). split=> // -[y z] Hy. exact: Hw2.
    - move: E. rewrite /s /worker /prob_solve. by case: (solve _ _) => //= -[].
  Qed.

  Lemma mapM_ok A B (f : A -> res B) (l : seq A) : (forall i (a0 : A), (i < size l)%N -> exists b, f (nth a0 l i) = Ok b) -> exists r, mapM f l = Ok r.
  Proof.
    elim: l => [|a l IH] H /=; first by eexists.
    have [b Hb] := H 0%N a erefl. rewrite Hb /=. have [|r ->] := IH; first by move=> i a0 Hi; exact: (H i.+1 a0).
    by eexists.
  Qed.
  Lemma mapM_raise A B (f : A -> res B) (l : seq A) ex : mapM f l = Raise ex -> exists i, (i < size l)%N /\ forall (a0 : A), f (nth a0 l i) = Raise ex.
  Proof.
    elim: l => [|a l IH] //=. case E: (f a) => [b|ex'] /=.
    - case E2: (mapM f l) => [bs|ex'] //= H0. have [i [Hi H]] := IH (etrans E2 H0). by exists i.+1.
    - case=> <-. by exists 0%N.
  Qed.

  Lemma bt_min_risk_cases (solve : solver_t n) W T a : solve_ok solve -> trader_ok T -> well_formed W ->
    a_type a = MinRisk \/ a_type a = RobustMinRisk -> a_speedup a = false -> (is_robust a -> exists k, a_kappa a = Some k /\ Rle 0 k) ->
    exists W', (bt_min_risk solve W T a).1.1 = W' /\
    ((bt_min_risk solve W T a).2 = Some SolverError \/
     exists ws ob, bt_min_risk solve W T a = (W', set_ws ws (set_obj ob T), None) /\ size ws = size (t_times T) /\ min_rows W T a ws ob).
  Proof.
    move=> Hso HT HW Hty Hsp Hk. eexists. split; first by reflexivity.
    have Hrob : (if a_type a is RobustMinRisk then true else false) = is_robust a by [].
    rewrite /bt_min_risk. rewrite !Hrob Hsp /=.
    have -> : is_robust a && ~~ isSome (a_kappa a) = false.
      apply/negbTE; rewrite negb_and negbK. case E: (is_robust a) => //=. by have [k [-> _]] := Hk E.
    rewrite eqxx -/(a_kap a).
    have HsL := size_L HT. have Hss := size_sh HT. have [_ [_ [Hpos _]]] := HT.
    case EL: (t_L_inv T) => [|L0 Ls]; first by rewrite EL /= in HsL; rewrite -HsL in Hpos.
    case Es: (t_sigma_hats T) => [|s0 ss]; first by rewrite Es /= in Hss; rewrite -Hss in Hpos.
    have Hkap k : a_kap a = Some k -> Rle 0 k.
      rewrite /a_kap. case E: (is_robust a) => // H. have [k' [Ek Hk']] := Hk E. move: H; rewrite Ek => -[] <-. exact: Hk'.
    have -> : (if a_kap a is Some k then if Rlt_dec k 0 then true else false else false) = false.
      case E: (a_kap a) => [k|] //. have := Hkap _ E. destruct (Rlt_dec k 0) => //. lra.
    set x := w_next W. set own := c_budget false x :: _. set cons := _ ++ own. set e := (if is_robust a then _ else _).
    have He : env_below x (w_env W) e.
      rewrite /e. case: (is_robust a); last exact: env_mat. apply: env_trans; last by apply: env_vec; lia. apply: env_mat; lia.
    have Hsig : a_kap a <> None -> p_vec e x.+2 = nth 0 (t_sigma_hats T) 0.
      rewrite /e /a_kap. case: (is_robust a) => //= _. by rewrite eqxx Es.
    case Ew: (worker solve _ cons e x) => [w0|ex]; last first.
      left. move: Ew. rewrite /worker /prob_solve. by case: (solve _ _) => //= -[] <-.
    rewrite -EL. case Em: (mapM _ _) => [sols|ex]; last first.
      have [i [Hi H]] := mapM_raise Em. rewrite HsL in Hi. have := day_worker Hso HT HW Hkap He Hsig Hi.
      cbv zeta. rewrite -/x -/own -/cons (H 0) => ->. by left.
    have [Hsz Hn] := mapM_nth Em. rewrite HsL in Hsz Hn.
    have Hday t : (t < size (t_times T))%N -> match nth None sols t with
      | Some (u, o) => consistent W (a_cons a) /\ minimiser (day_obj (a_kap a) (nth 0 (t_Sigmas T) t) (nth 0 (t_sigma_hats T) 0)) (portfolio (a_limits a)) u.1 /\
         o = day_obj (a_kap a) (nth 0 (t_Sigmas T) t) (nth 0 (t_sigma_hats T) 0) u.1
      | None => ~ consistent W (a_cons a) \/ ~ exists w : vec, portfolio (a_limits a) w
      end.
      move=> Ht. have := day_worker Hso HT HW Hkap He Hsig Ht. cbv zeta. by rewrite -/x -/own -/cons (Hn t 0 None Ht).
    have Hall : all isSome sols \/ all (fun o => ~~ isSome o) sols.
      case: (classic (consistent W (a_cons a) /\ exists w : vec, portfolio (a_limits a) w)) => [[H1 H2]|H].
      - left. apply/(all_nthP None) => t; rewrite Hsz => Ht. have := Hday t Ht. case: (nth _ _ _) => //= -[] //.
      - right. apply/(all_nthP None) => t; rewrite Hsz => Ht. have := Hday t Ht. case: (nth _ _ _) => //= -[u o] [Hc [[Hp _] _]].
        exfalso. apply: H. split=> //. by exists u.1.
    have -> : np_array sols = Ok sols by rewrite /np_array; case: Hall => ->; rewrite ?orbT.
    right. exists (rows_of sols), (pmap (fun s : option (vec * R * R) => if s is Some s then Some s.2 else None) sols).
    split; first by case: Hty => ->. split; first by rewrite size_map.
    case: Hall => Hall.
    - left. have [u [o [E0 _]]] := pmap_all 0 Hall (eq_ind_r (fun m => 0 < m)%N Hpos Hsz).
      have := Hday 0%N Hpos. rewrite E0 => -[Hc [[Hp _] _]]. split=> //. split; first by exists u.1. split; first by rewrite size_pmap_all.
      move=> t Ht. have [u' [o' [E1 E2]]] := pmap_all 0 Hall (eq_ind_r (fun m => t < m)%N Ht Hsz).
      exists u'.1. rewrite /rows_of (nth_map None) ?Hsz // E1 E2. split=> //. have := Hday t Ht. rewrite E1. by case=> _ [].
    - right. have Hno t : (t < size (t_times T))%N -> nth None sols t = None.
        move=> Ht. rewrite -Hsz in Ht. move/(all_nthP None): Hall => /(_ t Ht). by case: (nth _ _ _).
      split; first by have := Hday 0%N Hpos; rewrite Hno.
      move=> t Ht. by rewrite /rows_of (nth_map None) ?Hsz // Hno.
  Qed.

  (** ** mean_variance. *)
  Lemma own_mv (l : limits) x e v S sd : (forall w, risk (p_mat e x.+1) w = vol S w) ->
    all_hold (@c_budget n true x :: c_risk x (sd / sqrt 252)%re :: limit_cons n l x) e v <-> mv_portfolio l S sd (v x).
  Proof.
    move=> HV. rewrite 2!all_hold_cons limit_consP /c_budget /c_risk /total /mv_portfolio HV. have H252 := sqrt252.
    have E : Rle (vol S (v x).1) (sd / sqrt 252) <-> Rle (sqrt 252 * vol S (v x).1) sd.
      split=> H.
      - have := Rmult_le_compat_l (sqrt 252) _ _ ltac:(lra) H. have -> : (sqrt 252 * (sd / sqrt 252) = sd)%re by field; lra. by [].
      - apply: (Rmult_le_reg_l (sqrt 252)) => //. have -> : (sqrt 252 * (sd / sqrt 252) = sd)%re by field; lra. by [].
    by rewrite E.
  Qed.
  Definition rho_at (rhos : option (seq vec)) (t : nat) : vec := if rhos is Some r then nth 0 r t else 0.
  Definition mv_feasible T a sd t : Prop := exists u : vec * R, mv_portfolio (a_limits a) (nth 0 (t_Sigmas T) t) (sd * a_adjust a)%re u.
  Definition mv_day T a sd (r rho : vec) t (u : vec * R) : Prop :=
    minimiser (fun u => (- mv_value r rho u)%re) (mv_portfolio (a_limits a) (nth 0 (t_Sigmas T) t) (sd * a_adjust a)%re) u.
  Lemma nonnegP (r : vec) : reflect (forall i, Rle 0 (r i ord0)) (nonneg r).
  Proof.
    apply: (iffP forallP) => H i; have := H i.
    - by destruct (Rle_dec 0 (r i 0)).
    - by destruct (Rle_dec 0 (r i 0)).
  Qed.

  Definition mv_rows W T a sd rh rhos (ws : seq (wrow n)) (ob : seq R) : Prop :=
    (consistent W (a_cons a) /\ size ob = size (t_times T) /\ forall t, (t < size (t_times T))%N -> exists u, nth None ws t = Some (u.1, [:: u.2]) /\
       mv_day T a sd (nth 0 rh t) (rho_at rhos t) t u /\ nth 0 ob t = mv_value (nth 0 rh t) (rho_at rhos t) u) \/
    (forall t, (t < size (t_times T))%N -> nth None ws t = None /\ (~ consistent W (a_cons a) \/ ~ mv_feasible T a sd t)).

  Lemma mv_day_worker (solve : solver_t n) W T a sd e t r rho (wr : bool) : solve_ok solve -> trader_ok T -> well_formed W ->
    env_below (w_next W) (w_env W) e -> (t < size (t_times T))%N -> (wr = false -> rho = 0) -> nonneg rho ->
    let x := w_next W in let own := @c_budget n true x :: c_risk x (sd * a_adjust a / sqrt 252)%re :: limit_cons n (a_limits a) x in
    match mv_worker solve (w_lists W (a_cons a) ++ own) e x wr (nth 0 (t_L_inv T) t, (r, rho)) with
    | Ok (Some (u, o)) => consistent W (a_cons a) /\ mv_day T a sd r rho t u /\ (- o)%re = mv_value r rho u
    | Ok None => ~ consistent W (a_cons a) \/ ~ mv_feasible T a sd t
    | Raise ex => ex = SolverError
    end.
  Proof.
    move=> Hso HT HW He Ht Hr0 Hnn x own. have [HL HS] := day_L 0 HT Ht.
    rewrite /mv_worker Hnn andbF. cbn [fst snd].
    set e' := set_vec _ x.+2 r.
    have He' : env_below x (w_env W) e'.
      apply: env_trans He _. rewrite /e'. case: wr {Hr0 e'}.
      - apply: (env_trans (e2 := set_vec e x.+3 rho)); first by apply: env_vec; lia.
        apply: (env_trans (e2 := set_mat (set_vec e x.+3 rho) x.+1 (nth 0 (t_L_inv T) t))); first by apply: env_mat; lia. apply: env_vec; lia.
      - apply: (env_trans (e2 := set_mat e x.+1 (nth 0 (t_L_inv T) t))); first by apply: env_mat; lia. apply: env_vec; lia.
    have Hold c : List.In c (w_lists W (a_cons a)) -> con_below x c by exact: HW.
    pose Q := mv_portfolio (a_limits a) (nth 0 (t_Sigmas T) t) (sd * a_adjust a)%re. pose g u := (- mv_value r rho u)%re.
    have Hown v : all_hold own e' v <-> Q (v x).
      apply: own_mv => w. have -> : p_mat e' x.+1 = nth 0 (t_L_inv T) t by rewrite /e'; case: (wr) => /=; rewrite eqxx. exact: L_inv_spec.
    have Hf v : obj_mean_var wr x e' v = g (v x).
      rewrite /obj_mean_var /g /mv_value. have -> : p_vec e' x.+2 = r by rewrite /e' /= eqxx.
      rewrite -/(dotp r (v x).1).
      have -> : (\sum_i rho i 0 * Rabs ((v x).1 i 0))%R = dotp rho (absv (v x).1) by apply: eq_bigr => i _; rewrite mxE.
      have E3 : wr -> p_vec e' x.+3 = rho.
        rewrite /e'; case: (wr) => //= _. have -> : (x.+3 == x.+2)%N = false by lia. by rewrite eqxx.
      move: E3 Hr0. case: (wr) => E3 Hr0.
      - by rewrite E3.
      - rewrite (Hr0 erefl). have -> : dotp 0 (absv (v x).1) = 0 by rewrite /dotp big1 // => i _; rewrite mxE mul0r. by [].
    have Hcons : (exists v, all_hold (w_lists W (a_cons a)) e' v) <-> consistent W (a_cons a).
      split=> -[v Hv]; exists v; apply: (all_hold_below Hold) Hv => //; exact: env_sym.
    case E: (worker _ _ _ _ _) => [[[u o]|]|ex].
    - have [Hm [-> Hc]] := @worker_solved _ _ _ _ e' _ g Q Hso Hold Hown Hf _ _ E. split; first by apply/Hcons. split=> //. exact: Ropp_involutive.
    - case: (classic (consistent W (a_cons a))) => [Hc|]; last by left. right=> Hw.
      move/Hcons in Hc. apply: (@worker_none _ _ _ _ e' _ g Q Hso Hold Hown Hf E Hc). exact: mv_exists.
    - move: E. rewrite /worker /prob_solve. by case: (solve _ _) => //= -[].
  Qed.

  Lemma bt_mv_cases (solve : solver_t n) W T a sd rh rhos : solve_ok solve -> trader_ok T -> well_formed W ->
    a_sigma_des a = Some sd -> t_rhats T = Some rh -> (forall r, rhos = Some r -> size r = size (t_times T) /\ all (@nonneg n) r) ->
    exists W', (bt_mean_variance solve W T a rhos).1.1 = W' /\
    ((bt_mean_variance solve W T a rhos).2 = Some SolverError \/
     ((bt_mean_variance solve W T a rhos).2 = Some ValueError /\ consistent W (a_cons a) /\
        (exists t, (t < size (t_times T))%N /\ mv_feasible T a sd t) /\ exists t, (t < size (t_times T))%N /\ ~ mv_feasible T a sd t) \/
     exists ws ob, bt_mean_variance solve W T a rhos = (W', set_ws ws (set_obj ob T), None) /\ size ws = size (t_times T) /\ mv_rows W T a sd rh rhos ws ob).
  Proof.
    move=> Hso HT HW Hsd Hrh Hrho. eexists. split; first by reflexivity.
    rewrite /bt_mean_variance Hrh Hsd /= eqxx.
    have HsL := size_L HT. have [_ [_ [Hpos [/(_ _ Hrh) Hsr _]]]] := HT.
    set rr := (if rhos is Some r then r else _).
    have [Hsrr Hrr] : size rr = size (t_times T) /\ forall t, (t < size (t_times T))%N -> nth 0 rr t = rho_at rhos t /\ nonneg (nth 0 rr t) /\ (isSome rhos = false -> nth 0 rr t = 0).
      rewrite /rr. case: rhos Hrho {rr} => [r|] Hrho.
      - have [Hs Ha] := Hrho _ erefl. split=> // t Ht. split=> //. split=> //. apply: (allP Ha). by rewrite mem_nth // Hs.
      - split; first by rewrite size_map. move=> t Ht. have Hz : nth 0 [seq (0 : vec) | _ <- t_times T] t = 0 by clear; elim: (t_times T) t => [|? ? IH] [|t] //=.
        rewrite Hz. split=> //. split=> //. apply/nonnegP => i. rewrite mxE. exact: Rle_refl.
    case EL: (t_L_inv T) => [|L0 Ls]; first by rewrite EL /= in HsL; rewrite -HsL in Hpos.
    case Er: rh => [|r0 rs]; first by rewrite Er /= in Hsr; rewrite -Hsr in Hpos.
    case Eq: rr => [|q0 qs]; first by rewrite Eq /= in Hsrr; rewrite -Hsrr in Hpos.
    have Hq0 : nonneg q0 by have [_ [H _]] := Hrr 0%N Hpos; rewrite Eq in H.
    rewrite Hq0 andbF -EL -Er -Eq.
    set x := w_next W. set own := c_budget true x :: _. set cons := _ ++ own. set e := (if isSome rhos then _ else _).
    have He : env_below x (w_env W) e.
      have H1 : env_below x (w_env W) (set_vec (set_mat (w_env W) x.+1 L0) x.+2 r0).
        apply: (env_trans (e2 := set_mat (w_env W) x.+1 L0)); first by apply: env_mat; lia. apply: env_vec; lia.
      rewrite /e. case: (isSome rhos) => //. apply: env_trans H1 _. apply: env_vec; lia.
    have Hw t : (t < size (t_times T))%N -> nth (0, (0, 0)) (zip (t_L_inv T) (zip rh rr)) t = (nth 0 (t_L_inv T) t, (nth 0 rh t, nth 0 rr t)).
      move=> Ht. rewrite nth_zip ?size_zip ?HsL ?Hsr ?Hsrr ?minnn // nth_zip // Hsr Hsrr. by [].
    have Hsz' : size (zip (t_L_inv T) (zip rh rr)) = size (t_times T) by rewrite !size_zip HsL Hsr Hsrr !minnn.
    have Hday t (Ht : (t < size (t_times T))%N) := mv_day_worker a sd (nth 0 rh t) Hso HT HW He Ht (proj2 (proj2 (Hrr t Ht))) (proj1 (proj2 (Hrr t Ht))).
    case Em: (mapM _ _) => [sols|ex]; last first.
      have [i [Hi H]] := mapM_raise Em. rewrite Hsz' in Hi. have := Hday i Hi. cbv zeta.
      rewrite -/x -/own -/cons -Hw // (H (0, (0, 0))) => ->. by left.
    have [Hsz Hn] := mapM_nth Em. rewrite Hsz' in Hsz Hn.
    have Hd t : (t < size (t_times T))%N -> match nth None sols t with
      | Some (u, o) => consistent W (a_cons a) /\ mv_day T a sd (nth 0 rh t) (rho_at rhos t) t u /\ (- o)%re = mv_value (nth 0 rh t) (rho_at rhos t) u
      | None => ~ consistent W (a_cons a) \/ ~ mv_feasible T a sd t
      end.
      move=> Ht. have := Hday t Ht. cbv zeta. rewrite -/x -/own -/cons -Hw // (Hn t (0, (0, 0)) None Ht). by rewrite (proj1 (Hrr t Ht)).
    have Hfe t u rh' rho' : mv_day T a sd rh' rho' t u -> mv_feasible T a sd t by move=> [H _]; exists u.
    rewrite /np_array. case Ha: (all isSome sols) => /=; [|case Hb: (all (fun o => ~~ isSome o) sols) => /=].
    - right; right. eexists; eexists. split; first by reflexivity. split; first by rewrite size_map.
      left.
      have Hob t : (t < size (t_times T))%N -> exists u o, nth None sols t = Some (u, o) /\ nth 0 (pmap (fun s : option (vec * R * R) => if s is Some s then Some (- s.2)%re else None) sols) t = (- o)%re.
        rewrite -Hsz. clear -Ha. elim: sols t Ha => [|[[u o]|] sols IH] [|t] //= H Ht; [by exists u, o|exact: IH].
      have Hso2 : size (pmap (fun s : option (vec * R * R) => if s is Some s then Some (- s.2)%re else None) sols) = size (t_times T).
        rewrite -Hsz. clear -Ha. elim: sols Ha => [|[[u o]|] sols IH] //= H. by rewrite IH.
      have [u [o [E0 _]]] := Hob _ Hpos. have := Hd _ Hpos. rewrite E0 => -[Hc _]. split=> //. split=> //.
      move=> t Ht. have [u' [o' [E1 E2]]] := Hob t Ht. exists u'. rewrite (nth_map None) ?Hsz // E1 E2. have := Hd t Ht. by rewrite E1 => -[_ [H1 H2]].
    - right; right. eexists; eexists. split; first by reflexivity. split; first by rewrite size_map.
      right=> t Ht. have Hno : nth None sols t = None by move/(all_nthP None): Hb => /(_ t); rewrite Hsz => /(_ Ht); case: (nth _ _ _).
      have := Hd t Ht. rewrite (nth_map None) ?Hsz // Hno. by [].
    - right; left. split=> //.
      have [t [Ht Et]] : exists t, (t < size (t_times T))%N /\ nth None sols t = None.
        move/negbT: Ha. rewrite -has_predC => /(has_nthP None) [t Ht /= Hx]. rewrite Hsz in Ht. exists t. split=> //. by case: (nth _ _ _) Hx.
      have [t' [Ht' [u [o Et']]]] : exists t, (t < size (t_times T))%N /\ exists u o, nth None sols t = Some (u, o).
        move/negbT: Hb. rewrite -has_predC => /(has_nthP None) [t' Ht' /=]. rewrite Hsz in Ht'. move=> Hx. exists t'. split=> //.
        case: (nth _ _ _) Hx => // -[u o] _. by exists u, o.
      have := Hd t Ht. rewrite Et => Hn1. have := Hd t' Ht'. rewrite Et' => -[Hc [Hm _]]. split=> //. split.
      + exists t'. split=> //. exact: Hfe Hm.
      + exists t. split=> //. by case: Hn1.
  Qed.
End Bt.
