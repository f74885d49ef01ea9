(** * Units (C28). *)
From Coq Require Import Reals Lra ZArith String List Lia Permutation.
Set Warnings "-notation-overridden,-ambiguous-paths".
From mathcomp Require Import all_ssreflect all_algebra.
From Verif Require Import RStruct MatR Num Py ListFacts Combination SpecComb CombFacts CombBuild CombSolve CombRun CombProps CombItems RealLA SpecCombR CombReal CombObj CombOpt CombExact CombPerm.
Set Implicit Arguments.
Unset Strict Implicit.
Unset Printing Implicit Defensive.
Import GRing.Theory.
Local Open Scope ring_scope.
Delimit Scope R_scope with re.

(** Covariances times [a], means times [a], returns times [a]. *)
Definition scale_covs n (a : R) (s : covs n) : covs n :=
  List.map (fun ks => (fst ks, List.map (fun tS => (fst tS, a *: snd tS)) (snd ks))) s.
Definition scale_mus n (a : R) (m : mus n) : mus n :=
  List.map (fun km => (fst km, List.map (fun tm => (fst tm, a *: snd tm)) (snd km))) m.
Definition scale_rets n (a : R) (r : rets n) : rets n := List.map (fun tr => (fst tr, a *: snd tr)) r.

Lemma zget_map (V W : Type) (f : V -> W) (d : list (Z * V)) t :
  dict_get Z.eqb (List.map (fun x => (fst x, f (snd x))) d) t = option_map f (dict_get Z.eqb d t).
Proof. by elim: d => [|[u v] d IH] //=; case: Z.eqb. Qed.
Lemma kget_map (V W : Type) (f : V -> W) (d : list (string * V)) t :
  dict_get String.eqb (List.map (fun x => (fst x, f (snd x))) d) t = option_map f (dict_get String.eqb d t).
Proof. by elim: d => [|[u v] d IH] //=; case: String.eqb. Qed.

Lemma unitZ n (a : R) (M : 'M[R]_n) : a <> 0 -> (a *: M \in unitmx) = (M \in unitmx).
Proof. by move=> /eqP Ha; rewrite unitmxZ // unitfE. Qed.
Lemma invZ n (a : R) (M : 'M[R]_n) : a <> 0 -> M \in unitmx -> invmx (a *: M) = (/ a)%re *: invmx M.
Proof. by move=> Ha Hu; rewrite invmxZ ?unitZ // RinvE. Qed.

Lemma mulrn_INR (x : R) m : x *+ m = (INR m * x)%re.
Proof.
elim: m => [|m IH]; first by rewrite mulr0n /= Rmult_0_l.
rewrite mulrS IH S_INR. toR. eqR. ring.
Qed.

Section Scale.
  Context (n : nat) (a : R) (sigmas : covs n) (means : option (mus n)) (returns : rets n).
  Hypothesis Ha : (0 < a)%re.
  Let sigmas' := scale_covs (a * a) sigmas.
  Let means' := option_map (scale_mus a) means.
  Let returns' := scale_rets a returns.
  Let K := List.length sigmas.
  Let K' := List.length sigmas'.
  Let LA := RLA n K.
  Let LA' := RLA n K'.

  Lemma KK' : K' = K. Proof. by rewrite /K' /sigmas' /scale_covs List.map_length. Qed.
  Lemma expert_scale k : expert sigmas' k = (fst (expert sigmas k), List.map (fun tS => (fst tS, (a * a) *: snd tS)) (snd (expert sigmas k))).
  Proof.
    rewrite /expert /sigmas' /scale_covs.
    by rewrite (List.map_nth (fun ks => (fst ks, List.map (fun tS => (fst tS, (a * a) *: snd tS)) (snd ks))) sigmas (EmptyString, nil) k).
  Qed.
  Lemma cov_scale k t : cov_of sigmas' k t = option_map (fun S => (a * a) *: S) (cov_of sigmas k t).
  Proof. by rewrite /cov_of expert_scale /= zget_map. Qed.
  Lemma mean_scale k t : mean_of means' sigmas' k t = a *: mean_of means sigmas k t.
  Proof.
    rewrite /mean_of expert_scale /= /means'. case: means => [m|] /=; last by rewrite scaler0.
    rewrite kget_map. case: (dict_get _ m _) => [d|] /=; last by rewrite scaler0.
    by rewrite zget_map; case: (dict_get _ d _) => [v|] //=; rewrite scaler0.
  Qed.
  Lemma ret_scale u : ret sigmas' returns' u = a *: ret sigmas returns u.
  Proof.
    rewrite /ret /return_at /returns' /scale_rets zget_map. by case: (dict_get _ _ _) => [v|] //=; rewrite scaler0.
  Qed.
  Lemma times_scale : forecast_times LA' sigmas' = forecast_times LA sigmas.
  Proof. by rewrite /forecast_times /sigmas' /scale_covs; case: sigmas => [|ks s] //=; rewrite List.map_map. Qed.

  Lemma chol_scale (S L L' : 'M[R]_n) : S \in unitmx -> is_chol (invmx S) L -> is_chol (invmx ((a * a) *: S)) L' ->
    L' = (/ a)%re *: L.
  Proof.
    move=> Hu [Ht [Hdg E]] C'. apply: is_chol_inj C' _.
    have Hai : (0 < / a)%re by exact: Rinv_0_lt_compat.
    split; last split.
    - by apply/is_trig_mxP => i j Hij; rewrite mxE (is_trig_mxP Ht) // mulr0.
    - by move=> i; rewrite mxE; apply: Rmult_lt_0_compat.
    - rewrite trZ -scalemxAl -scalemxAr scalerA E invZ //; last by apply: Rgt_not_eq; apply: Rmult_gt_0_compat.
      congr (_ *: _). toR. eqR. field. lra.
  Qed.
End Scale.

Section ScaleRun.
  Context (n : nat) (a : R) (sigmas : covs n) (means : option (mus n)) (returns : rets n).
  Hypothesis Ha : (0 < a)%re.
  Let sigmas' := scale_covs (a * a) sigmas.
  Let means' := option_map (scale_mus a) means.
  Let returns' := scale_rets a returns.
  Let K := List.length sigmas.
  Let K' := List.length sigmas'.
  Let LA := RLA n K.
  Let LA' := RLA n K'.
  Context (c : comb LA) (c' : comb LA').
  Hypothesis Hd : dicts sigmas.
  Hypothesis Hc : from_sigmas LA sigmas returns means = Ok c.
  Hypothesis Hc' : from_sigmas LA' sigmas' returns' means' = Ok c'.
  Hypothesis Hy : all_sym sigmas.
  Hypothesis Hinc : increasing (forecast_times LA sigmas).

  Lemma KKs : K' = K. Proof. exact: KK'. Qed.
  Lemma dicts_scale : dicts sigmas'.
  Proof.
    case: Hd => H1 H2; split.
    - by rewrite /sigmas' /scale_covs List.map_map.
    - rewrite /sigmas' /scale_covs. apply/List.Forall_forall => ks /List.in_map_iff [k0 [<- Hin]] /=.
      rewrite List.map_map /=. move/List.Forall_forall: H2. by apply.
  Qed.
  Lemma sym_scale : all_sym sigmas'.
  Proof.
    move=> ks tS /List.in_map_iff [k0 [<- Hin]] /= /List.in_map_iff [tS0 [<- Hin2]] /=.
    by rewrite /sym trZ (Hy Hin Hin2).
  Qed.
  Lemma fac_scale t k : List.In t (forecast_times LA sigmas) -> (k < K)%N -> fac sigmas' t k = (/ a)%re *: fac sigmas t k.
  Proof.
    move=> Ht Hk.
    have [Hst [Hfe _]] := from_sigmas_inv LA _ _ _ _ Hd Hc.
    have [Hst' [Hfe' _]] := from_sigmas_inv LA' _ _ _ _ dicts_scale Hc'.
    have Ht' : List.In t (forecast_times LA' sigmas') by rewrite times_scale.
    have Hk' : (k < K')%N by rewrite KKs.
    have [S [E1 [U1 C1]]] := fac_spec Hd Hst Hfe Hy Ht Hk.
    have [S' [E2 [U2 C2]]] := fac_spec dicts_scale Hst' Hfe' sym_scale Ht' Hk'.
    move: E2; rewrite cov_scale E1 => -[E2]. subst S'. exact: (chol_scale Ha U1 C1 C2).
  Qed.
  Lemma avgL_scale t w : List.In t (forecast_times LA sigmas) -> avgL sigmas' t w = (/ a)%re *: avgL sigmas t w.
  Proof.
    move=> Ht. rewrite /avgL /avg_factor -/K -/K' KKs scaler_sumr. apply: eq_bigr => k _.
    by rewrite fac_scale // !scalerA mulrC.
  Qed.
  Lemma avgN_scale t w : List.In t (forecast_times LA sigmas) -> avgN sigmas' means' t w = avgN sigmas means t w.
  Proof.
    move=> Ht. rewrite /avgN /avg_nu -/K -/K' KKs. apply: eq_bigr => k _.
    rewrite fac_scale // mean_scale trZ -scalemxAl -scalemxAr (scalerA (/ a)%re a). congr (_ *: _).
    have -> : (/ a)%re * a = 1 by apply: Rinv_l; lra. by rewrite scale1r.
  Qed.
  Lemma term_scale w s u : List.In s (forecast_times LA sigmas) -> feasible K w ->
    (forall i, (0 < avgL sigmas s w i i)%re) ->
    term sigmas' means' returns' w (s, u) = (term sigmas means returns w (s, u) - INR n * ln a)%re.
  Proof.
    move=> Hs Fw Hp. rewrite /term /= avgL_scale // avgN_scale // ret_scale.
    have -> : ((/ a)%re *: avgL sigmas s w)^T *m (a *: ret sigmas returns u) = (avgL sigmas s w)^T *m ret sigmas returns u.
      rewrite trZ -scalemxAl -scalemxAr scalerA. have -> : (/ a)%re * a = 1 by apply: Rinv_l; lra. by rewrite scale1r.
    have -> : \sum_(i < n) ln (((/ a)%re *: avgL sigmas s w) i i) = (\sum_(i < n) ln (avgL sigmas s w i i) - INR n * ln a)%re.
      rewrite (eq_bigr (fun i => ln (avgL sigmas s w i i) - ln a)) => [|i _].
        rewrite sumrB sumr_const card_ord. by rewrite mulrn_INR.
      rewrite mxE. toR. rewrite ln_mult //; last exact: Rinv_0_lt_compat. rewrite ln_Rinv //. exact: Rplus_comm.
    move: (nsq _) (\sum_(i < n) ln (avgL sigmas s w i i)) => B A. toR. eqR. ring.
  Qed.

  Theorem scale_run slv slv' window times items items' :
    returns_optimal slv -> returns_optimal slv' ->
    solve LA slv c window times = (items, None) -> solve LA' slv' c' window times = (items', None) ->
    List.length items = List.length items' /\
    forall j r r', List.nth_error items j = Some (Some r) -> List.nth_error items' j = Some (Some r') ->
      r_time LA r = r_time LA' r' /\ r_weights LA' r' = r_weights LA r /\
      (r_mean LA' r' : 'cV[R]_n) = a *: (r_mean LA r : 'cV[R]_n) /\
      (r_cov LA' r' : 'M[R]_n) = (a * a) *: (r_cov LA r : 'M[R]_n).
  Proof.
    move=> Ho Ho' Hs Hs'.
    have Hd' := dicts_scale.
    have Et : forecast_times LA' sigmas' = forecast_times LA sigmas by exact: times_scale.
    have Hinc' : increasing (forecast_times LA' sigmas') by rewrite Et.
    have [L1 [R1 N1]] := solve_run LA _ _ _ _ _ _ _ _ Hd Hc Hinc Hs.
    have [L2 [R2 N2]] := solve_run LA' _ _ _ _ _ _ _ _ Hd' Hc' Hinc' Hs'.
    have Esc : scored LA' sigmas' = scored LA sigmas by rewrite /scored Et.
    rewrite Et Esc in L2 R2 N2.
    split; first by rewrite L1 L2.
    move=> j r r' Hj Hj'.
    have Hjl : (j < List.length (positions (scored LA sigmas) (eff (List.length (forecast_times LA sigmas)) window) times))%coq_nat.
      rewrite -L1. apply/List.nth_error_Some. by rewrite Hj.
    case El: (List.nth_error (positions (scored LA sigmas) (eff (List.length (forecast_times LA sigmas)) window) times) j) => [i|];
      last by move/List.nth_error_Some: Hjl; rewrite El.
    have [h [p [Ep Hp]]] := N1 _ _ El. have [h' [p' [Ep' Hp']]] := N2 _ _ El.
    set w := eff _ _ in Ep Ep'.
    have Epr : pairs_at LA' sigmas' w i = pairs_at LA sigmas w i.
      by rewrite /pairs_at /window_at Esc Et.
    have [_ [A1 P1]] := posed_at LA _ _ _ _ _ _ _ Ep.
    have [_ [A2 P2]] := posed_at LA' _ _ _ _ _ _ _ Ep'.
    rewrite Epr in A2 P2. set pairs := pairs_at LA sigmas w i in A1 P1 A2 P2.
    case Ex: (slv h p) Hp => [x|]; last by rewrite Hj.
    case Ex': (slv' h' p') Hp' => [x'|]; last by rewrite Hj'.
    move=> [r1' [Hr' Ej']] [r1 [Hr Ej]].
    have E1 : r1 = r by move: Ej; rewrite Hj => -[].
    have E2 : r1' = r' by move: Ej'; rewrite Hj' => -[].
    subst r1 r1'.
    have O1 := Ho _ _ _ Ex. have O2 := Ho' _ _ _ Ex'.
    have Ep1 : p = (pairs_diag LA sigmas pairs, snd p) by rewrite -A1; case: (p).
    have Ep2 : p' = (pairs_diag LA' sigmas' pairs, snd p') by rewrite -A2; case: (p').
    have Fx : feasible K x by case: O1. have Sx : size x = K by case: Fx.
    have HK : (0 < K)%N.
      rewrite lt0n; apply/eqP => E. case: Fx => _ [_]; rewrite E big_ord0; toR => ?; lra.
    have HK' : (0 < K')%N by rewrite KKs.
    have Hcons : forall s u, List.In (s, u) pairs -> consecutive (forecast_times LA sigmas) s u.
      by move=> s u; apply: pairs_at_consecutive.
    have Hl := lagged_pairs Hd Hc Hy Hcons.
    have Eobj : forall v, feasible K v -> objective (rows_of p') p' v = (objective (rows_of p) p v - INR (List.length pairs) * (INR n * ln a))%re.
      move=> v Fv. rewrite Ep1 Ep2 (objective_closed _ HK P1) (objective_closed _ HK' P2).
      elim: pairs Hcons Hl {A1 P1 A2 P2 Ep1 Ep2} => [|[s u] l IH] Hcons Hl.
        by rewrite !big_nil /=; toR; eqR; ring.
      rewrite !big_cons IH; last first.
      + by move=> st Hst; apply: Hl; right.
      + by move=> s0 u0 Hst; apply: Hcons; right.
      rewrite term_scale //; last first.
      + move=> q. apply: avg_diag_pos => // k0 j0 Hk0. by case: (Hl (s, u) (or_introl erefl) k0 Hk0).
      + by case: (consecutive_in _ _ _ (Hcons _ _ (or_introl erefl))).
      change (List.length ((s, u) :: l)%SEQ) with (S (List.length l)). rewrite S_INR.
      move: (term _ _ _ _ _) (\sum_(st <- l) _) => B A. toR. eqR. ring.
    have O3 : optimal p' x.
      have FK : forall v, feasible K' v <-> feasible K v by rewrite KKs.
      split; first exact/FK.
      move=> v /FK Fv. rewrite !Eobj //. case: O1 => _ O1. have := O1 _ Fv.
      move: (objective _ _ _) (objective _ _ _) => A B. lra.
    have Hl' : lagged_ok sigmas' pairs.
      apply: (lagged_pairs Hd' Hc' sym_scale) => s u. rewrite Et. exact: Hcons.
    have Exx : x' = x.
      rewrite Ep2 in O2 O3. exact: opt_unique Hl' P2 O2 O3.
    have Etr : r_time LA r = List.nth i (scored LA sigmas) Z0 by case: (combined_time LA _ _ _ _ _ Hr).
    have Etr' : r_time LA' r' = List.nth i (scored LA sigmas) Z0 by case: (combined_time LA' _ _ _ _ _ Hr').
    rewrite Etr Etr'. split=> //. move: Hr Hr'.
    have Hin : List.In (List.nth i (scored LA sigmas) Z0) (forecast_times LA sigmas).
      apply: scored_incl. apply: List.nth_In. by case: (R1 i (List.nth_error_In _ _ El)).
    rewrite combined_real // combined_real; last by rewrite Exx -/K' KKs.
    cbv zeta. rewrite -!/(avgL _ _ _) -!/(avgN _ _ _ _) Exx avgL_scale // avgN_scale //.
    have Hai : (/ a)%re <> 0 by apply: Rgt_not_eq; apply: Rinv_0_lt_compat.
    have Hap : a <> 0 by apply: Rgt_not_eq.
    rewrite unitZ //.
    case: ifP => // Hu [<-] [<-] /=. split=> //.
    have HuT : (avgL sigmas (List.nth i (scored LA sigmas) Z0) x)^T \in unitmx by rewrite unitmx_tr.
    split.
    - rewrite trZ invZ // Rinv_inv // -scalemxAl. by [].
    - rewrite trZ -scalemxAl -scalemxAr scalerA invZ //; last 2 first.
      + by apply: Rmult_integral_contrapositive.
      + by rewrite unitmx_mul Hu HuT.
      congr (_ *: _). toR. eqR. field. exact: Hap.
  Qed.
End ScaleRun.
