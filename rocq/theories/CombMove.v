(** * Changes of assets that keep the order of the Cholesky factors: units per asset (C28). *)
From Coq Require Import Reals Lra ZArith String List Lia Permutation.
Set Warnings "-notation-overridden,-ambiguous-paths".
From mathcomp Require Import all_ssreflect all_algebra.
From Verif Require Import RStruct MatR Num Py ListFacts Combination SpecComb CombFacts CombBuild CombSolve CombRun CombProps CombItems RealLA SpecCombR CombReal CombObj CombOpt CombExact CombPerm CombScale SpecMove.
Set Implicit Arguments.
Unset Strict Implicit.
Unset Printing Implicit Defensive.
Import GRing.Theory.
Local Open Scope ring_scope.
Delimit Scope R_scope with re.

Lemma trig_diag n (A B : 'M[R]_n) i : is_trig_mx A -> is_trig_mx B -> (A *m B) i i = A i i * B i i.
Proof.
move=> /is_trig_mxP HA /is_trig_mxP HB. rewrite mxE (bigD1 i) //= big1 ?addr0 // => j Hj.
case: (ltngtP i j) => Hij; [by rewrite HA // mul0r|by rewrite (HB j i) // mulr0|].
by move/negP: Hj; case; apply/eqP/val_inj.
Qed.
Lemma trig_mul n (A B : 'M[R]_n) : is_trig_mx A -> is_trig_mx B -> is_trig_mx (A *m B).
Proof.
move=> /is_trig_mxP HA /is_trig_mxP HB. apply/is_trig_mxP => i k Hik. rewrite mxE big1 // => j _.
case: (ltnP i j) => Hij; first by rewrite HA // mul0r. by rewrite (HB j k) ?mulr0 //; apply: leq_ltn_trans Hij Hik.
Qed.

Section Move.
  Context (n : nat) (T U : 'M[R]_n) (sigmas : covs n) (means : option (mus n)) (returns : rets n).
  Hypothesis HTU : T *m U^T = 1%:M.
  Hypothesis Htr : is_trig_mx U.
  Hypothesis Hdg : forall i, (0 < U i i)%re.
  Let sigmas' := move_covs T sigmas.
  Let means' := option_map (move_mus T) means.
  Let returns' := move_rets T returns.
  Let K := List.length sigmas.
  Let K' := List.length sigmas'.
  Let LA := RLA n K.
  Let LA' := RLA n K'.

  Lemma KKm' : K' = K. Proof. by rewrite /K' /sigmas' /move_covs List.map_length. Qed.
  Lemma expert_move k : expert sigmas' k = (fst (expert sigmas k), List.map (fun tS => (fst tS, T *m snd tS *m T^T)) (snd (expert sigmas k))).
  Proof.
    rewrite /expert /sigmas' /move_covs.
    by rewrite (List.map_nth (fun ks => (fst ks, List.map (fun tS => (fst tS, T *m snd tS *m T^T)) (snd ks))) sigmas (EmptyString, nil) k).
  Qed.
  Lemma cov_move k t : cov_of sigmas' k t = option_map (fun S => T *m S *m T^T) (cov_of sigmas k t).
  Proof. by rewrite /cov_of expert_move /= (zget_map (fun S => T *m S *m T^T)). Qed.
  Lemma mean_move k t : mean_of means' sigmas' k t = T *m mean_of means sigmas k t.
  Proof.
    rewrite /mean_of expert_move /= /means'. case: means => [m|] /=; last by rewrite mulmx0.
    rewrite (kget_map (fun d => List.map (fun tm => (fst tm, T *m snd tm)) d)). case: (dict_get _ m _) => [d|] /=; last by rewrite mulmx0.
    by rewrite (zget_map (fun v => T *m v)); case: (dict_get _ d _) => [v|] //=; rewrite mulmx0.
  Qed.
  Lemma ret_move u : ret sigmas' returns' u = T *m ret sigmas returns u.
  Proof.
    rewrite /ret /return_at /returns' /move_rets (zget_map (fun v => T *m v)). by case: (dict_get _ _ _) => [v|] //=; rewrite mulmx0.
  Qed.
  Lemma times_move : forecast_times LA' sigmas' = forecast_times LA sigmas.
  Proof. by rewrite /forecast_times /sigmas' /move_covs; case: sigmas => [|ks s] //=; rewrite List.map_map. Qed.

  Lemma UT : U^T *m T = 1%:M. Proof. exact: mulmx1C. Qed.
  Lemma TtU : T^T *m U = 1%:M. Proof. by rewrite -(trmxK U) -trmx_mul UT trmx1. Qed.
  Lemma UTt : U *m T^T = 1%:M. Proof. exact: mulmx1C TtU. Qed.
  Lemma unitU : U \in unitmx. Proof. by case: (mulmx1_unit UTt). Qed.
  Lemma unitT : T \in unitmx. Proof. by case: (mulmx1_unit HTU). Qed.
  Lemma inv_move (S : 'M[R]_n) : S \in unitmx -> invmx (T *m S *m T^T) = U *m invmx S *m U^T.
  Proof.
    move=> Hu. have HuS : T *m S *m T^T \in unitmx by rewrite !unitmx_mul unitT Hu unitmx_tr unitT.
    apply: (can_inj (mulKmx HuS)). rewrite mulmxV // -[LHS]HTU. rewrite -!mulmxA. congr (T *m _).
    by rewrite (mulmxA T^T U) TtU mul1mx (mulmxA S) mulmxV ?mul1mx.
  Qed.
  Lemma chol_move (S L L' : 'M[R]_n) : S \in unitmx -> is_chol (invmx S) L -> is_chol (invmx (T *m S *m T^T)) L' ->
    L' = U *m L.
  Proof.
    move=> Hu [Ht [Hdg' E]] C'. apply: is_chol_inj C' _.
    split; last split.
    - exact: trig_mul.
    - move=> i. rewrite trig_diag //. exact: Rmult_lt_0_compat.
    - by rewrite inv_move // -E trmx_mul !mulmxA.
  Qed.
End Move.

Section MoveRun.
  Context (n : nat) (T U : 'M[R]_n) (sigmas : covs n) (means : option (mus n)) (returns : rets n).
  Hypothesis HTU : T *m U^T = 1%:M.
  Hypothesis Htr : is_trig_mx U.
  Hypothesis Hdg : forall i, (0 < U i i)%re.
  Let sigmas' := move_covs T sigmas.
  Let means' := option_map (move_mus T) means.
  Let returns' := move_rets T returns.
  Let K := List.length sigmas.
  Let K' := List.length sigmas'.
  Let LA := RLA n K.
  Let LA' := RLA n K'.
  Context (c : comb LA) (c' : comb LA').
  Hypothesis Hd : dicts sigmas.
  Hypothesis Hc : from_sigmas LA sigmas returns means = Ok c.
  Hypothesis Hc' : from_sigmas LA' sigmas' returns' means' = Ok c'.
  Hypothesis Hy : all_sym sigmas.
  Hypothesis Hinc : increasing (forecast_times LA sigmas).

  Lemma KKsm : K' = K. Proof. exact: KKm'. Qed.
  Lemma dicts_move : dicts sigmas'.
  Proof.
    case: Hd => H1 H2; split.
    - by rewrite /sigmas' /move_covs List.map_map.
    - rewrite /sigmas' /move_covs. apply/List.Forall_forall => ks /List.in_map_iff [k0 [<- Hin]] /=.
      rewrite List.map_map /=. move/List.Forall_forall: H2. by apply.
  Qed.
  Lemma sym_move : all_sym sigmas'.
  Proof.
    move=> ks tS /List.in_map_iff [k0 [<- Hin]] /= /List.in_map_iff [tS0 [<- Hin2]] /=.
    by rewrite /sym !trmx_mul trmxK (Hy Hin Hin2) mulmxA.
  Qed.
  Lemma fac_move t k : List.In t (forecast_times LA sigmas) -> (k < K)%N -> fac sigmas' t k = U *m fac sigmas t k.
  Proof.
    move=> Ht Hk.
    have [Hst [Hfe _]] := from_sigmas_inv LA _ _ _ _ Hd Hc.
    have [Hst' [Hfe' _]] := from_sigmas_inv LA' _ _ _ _ dicts_move Hc'.
    have Ht' : List.In t (forecast_times LA' sigmas') by rewrite times_move.
    have Hk' : (k < K')%N by rewrite KKsm.
    have [S [E1 [U1 C1]]] := fac_spec Hd Hst Hfe Hy Ht Hk.
    have [S' [E2 [U2 C2]]] := fac_spec dicts_move Hst' Hfe' sym_move Ht' Hk'.
    move: E2; rewrite cov_move E1 => -[E2]. subst S'. exact: (chol_move HTU Htr Hdg U1 C1 C2).
  Qed.
  Lemma avgL_move t w : List.In t (forecast_times LA sigmas) -> avgL sigmas' t w = U *m avgL sigmas t w.
  Proof.
    move=> Ht. rewrite /avgL /avg_factor -/K -/K' KKsm mulmx_sumr. apply: eq_bigr => k _.
    by rewrite fac_move // scalemxAr.
  Qed.
  Lemma avgL_trig t w : List.In t (forecast_times LA sigmas) -> is_trig_mx (avgL sigmas t w).
  Proof.
    move=> Ht. have [Hst [Hfe _]] := from_sigmas_inv LA _ _ _ _ Hd Hc. apply/is_trig_mxP => i j Hij.
    rewrite /avgL /avg_factor summxE big1 // => k _. have [S [_ [_ [/is_trig_mxP C1 _]]]] := fac_spec Hd Hst Hfe Hy Ht (ltn_ord k).
    by rewrite mxE C1 // mulr0.
  Qed.
  Lemma avgN_move t w : List.In t (forecast_times LA sigmas) -> avgN sigmas' means' t w = avgN sigmas means t w.
  Proof.
    move=> Ht. rewrite /avgN /avg_nu -/K -/K' KKsm. apply: eq_bigr => k _.
    rewrite fac_move // mean_move trmx_mul. congr (_ *: _). by rewrite mulmxA -(mulmxA _ U^T T) (UT HTU) mulmx1.
  Qed.
  Definition lnU : R := \sum_(i < n) ln (U i i).
  Lemma term_move w s u : List.In s (forecast_times LA sigmas) -> feasible K w ->
    (forall i, (0 < avgL sigmas s w i i)%re) ->
    term sigmas' means' returns' w (s, u) = (term sigmas means returns w (s, u) + lnU)%re.
  Proof.
    move=> Hs Fw Hp. rewrite /term /= avgL_move // avgN_move // ret_move.
    have -> : (U *m avgL sigmas s w)^T *m (T *m ret sigmas returns u) = (avgL sigmas s w)^T *m ret sigmas returns u.
      by rewrite trmx_mul mulmxA -(mulmxA _ U^T T) (UT HTU) mulmx1.
    have -> : \sum_(i < n) ln ((U *m avgL sigmas s w) i i) = (\sum_(i < n) ln (avgL sigmas s w i i) + lnU)%re.
      rewrite /lnU. change (\sum_(i < n) ln ((U *m avgL sigmas s w) i i) = \sum_(i < n) ln (avgL sigmas s w i i) + \sum_(i < n) ln (U i i)). rewrite -big_split /=. apply: eq_bigr => i _. rewrite trig_diag //; last exact: avgL_trig.
      toR. rewrite ln_mult //. exact: Rplus_comm.
    move: (nsq _) (\sum_(i < n) ln (avgL sigmas s w i i)) lnU => B A C. toR. eqR. ring.
  Qed.

  Theorem move_run slv slv' window times items items' :
    returns_optimal slv -> returns_optimal slv' ->
    solve LA slv c window times = (items, None) -> solve LA' slv' c' window times = (items', None) ->
    List.length items = List.length items' /\
    forall j r r', List.nth_error items j = Some (Some r) -> List.nth_error items' j = Some (Some r') ->
      r_time LA r = r_time LA' r' /\ r_weights LA' r' = r_weights LA r /\
      (r_mean LA' r' : 'cV[R]_n) = T *m (r_mean LA r : 'cV[R]_n) /\
      (r_cov LA' r' : 'M[R]_n) = T *m (r_cov LA r : 'M[R]_n) *m T^T.
  Proof.
    move=> Ho Ho' Hs Hs'.
    have Hd' := dicts_move.
    have Et : forecast_times LA' sigmas' = forecast_times LA sigmas by exact: times_move.
    have Hinc' : increasing (forecast_times LA' sigmas') by rewrite Et.
    have [L1 [R1 N1]] := solve_run LA _ _ _ _ _ _ _ _ Hd Hc Hinc Hs.
    have [L2 [R2 N2]] := solve_run LA' _ _ _ _ _ _ _ _ Hd' Hc' Hinc' Hs'.
    have Esc : scored LA' sigmas' = scored LA sigmas by rewrite /scored Et.
    rewrite Et Esc in L2 R2 N2.
    split; first by rewrite L1 L2.
    move=> j r r' Hj Hj'.
    have Hjl : (j < List.length (positions (scored LA sigmas) (eff (List.length (forecast_times LA sigmas)) window) times))%coq_nat.
      rewrite -L1. apply/List.nth_error_Some. by rewrite Hj.
    case El: (List.nth_error (positions (scored LA sigmas) (eff (List.length (forecast_times LA sigmas)) window) times) j) => [i|];
      last by move/List.nth_error_Some: Hjl; rewrite El.
    have [h [p [Ep Hp]]] := N1 _ _ El. have [h' [p' [Ep' Hp']]] := N2 _ _ El.
    set w := eff _ _ in Ep Ep'.
    have Epr : pairs_at LA' sigmas' w i = pairs_at LA sigmas w i.
      by rewrite /pairs_at /window_at Esc Et.
    have [_ [A1 P1]] := posed_at LA _ _ _ _ _ _ _ Ep.
    have [_ [A2 P2]] := posed_at LA' _ _ _ _ _ _ _ Ep'.
    rewrite Epr in A2 P2. set pairs := pairs_at LA sigmas w i in A1 P1 A2 P2.
    case Ex: (slv h p) Hp => [x|]; last by rewrite Hj.
    case Ex': (slv' h' p') Hp' => [x'|]; last by rewrite Hj'.
    move=> [r1' [Hr' Ej']] [r1 [Hr Ej]].
    have E1 : r1 = r by move: Ej; rewrite Hj => -[].
    have E2 : r1' = r' by move: Ej'; rewrite Hj' => -[].
    subst r1 r1'.
    have O1 := Ho _ _ _ Ex. have O2 := Ho' _ _ _ Ex'.
    have Ep1 : p = (pairs_diag LA sigmas pairs, snd p) by rewrite -A1; case: (p).
    have Ep2 : p' = (pairs_diag LA' sigmas' pairs, snd p') by rewrite -A2; case: (p').
    have Fx : feasible K x by case: O1. have Sx : size x = K by case: Fx.
    have HK : (0 < K)%N.
      rewrite lt0n; apply/eqP => E. case: Fx => _ [_]; rewrite E big_ord0; toR => ?; lra.
    have HK' : (0 < K')%N by rewrite KKsm.
    have Hcons : forall s u, List.In (s, u) pairs -> consecutive (forecast_times LA sigmas) s u.
      by move=> s u; apply: pairs_at_consecutive.
    have Hl := lagged_pairs Hd Hc Hy Hcons.
    have Eobj : forall v, feasible K v -> objective (rows_of p') p' v = (objective (rows_of p) p v + INR (List.length pairs) * lnU)%re.
      move=> v Fv. rewrite Ep1 Ep2 (objective_closed _ HK P1) (objective_closed _ HK' P2).
      elim: pairs Hcons Hl {A1 P1 A2 P2 Ep1 Ep2} => [|[s u] l IH] Hcons Hl.
        by rewrite !big_nil /=; toR; eqR; ring.
      rewrite !big_cons IH; last first.
      + by move=> st Hst; apply: Hl; right.
      + by move=> s0 u0 Hst; apply: Hcons; right.
      rewrite term_move //; last first.
      + move=> q. apply: avg_diag_pos => // k0 j0 Hk0. by case: (Hl (s, u) (or_introl erefl) k0 Hk0).
      + by case: (consecutive_in _ _ _ (Hcons _ _ (or_introl erefl))).
      change (List.length ((s, u) :: l)%SEQ) with (S (List.length l)). rewrite S_INR.
      move: (term _ _ _ _ _) (\sum_(st <- l) _) => B A. toR. eqR. ring.
    have O3 : optimal p' x.
      have FK : forall v, feasible K' v <-> feasible K v by rewrite KKsm.
      split; first exact/FK.
      move=> v /FK Fv. rewrite !Eobj //. case: O1 => _ O1. have := O1 _ Fv.
      move: (objective _ _ _) (objective _ _ _) => A B. lra.
    have Hl' : lagged_ok sigmas' pairs.
      apply: (lagged_pairs Hd' Hc' sym_move) => s u. rewrite Et. exact: Hcons.
    have Exx : x' = x.
      rewrite Ep2 in O2 O3. exact: opt_unique Hl' P2 O2 O3.
    have Etr : r_time LA r = List.nth i (scored LA sigmas) Z0 by case: (combined_time LA _ _ _ _ _ Hr).
    have Etr' : r_time LA' r' = List.nth i (scored LA sigmas) Z0 by case: (combined_time LA' _ _ _ _ _ Hr').
    rewrite Etr Etr'. split=> //. move: Hr Hr'.
    have Hin : List.In (List.nth i (scored LA sigmas) Z0) (forecast_times LA sigmas).
      apply: scored_incl. apply: List.nth_In. by case: (R1 i (List.nth_error_In _ _ El)).
    rewrite combined_real // combined_real; last by rewrite Exx -/K' KKsm.
    cbv zeta. rewrite -!/(avgL _ _ _) -!/(avgN _ _ _ _) Exx avgL_move // avgN_move //.
    have HU := unitU HTU. have HT := unitT HTU.
    rewrite unitmx_mul HU /=.
    case: ifP => // Hu [<-] [<-] /=. split=> //.
    set L := avgL _ _ _ in Hu *. have HuT : L^T \in unitmx by rewrite unitmx_tr.
    split.
    - rewrite trmx_mul. have HuUL : L^T *m U^T \in unitmx by rewrite unitmx_mul HuT unitmx_tr HU.
      apply: (can_inj (mulKmx HuUL)). rewrite mulKVmx //. by rewrite -!mulmxA (mulmxA U^T T) (UT HTU) mul1mx mulKVmx.
    - rewrite -(invmxK (T *m _ *m _)). congr invmx. rewrite (inv_move HTU); last by rewrite unitmx_inv unitmx_mul Hu HuT.
      by rewrite invmxK trmx_mul !mulmxA.
  Qed.
End MoveRun.
