(** * A change of assets: the moved data can be combined whenever the original data can. *)
From Coq Require Import Reals Lra ZArith String List Lia Classical.
Set Warnings "-notation-overridden,-ambiguous-paths".
From mathcomp Require Import all_ssreflect all_algebra.
From Verif Require Import RStruct MatR Num Py ListFacts Combination SpecComb CombFacts CombBuild CombSolve CombRun CombProps CombItems RealLA SpecCombR CombReal CombObj CombOpt CombExact CombPerm CombScale CombDegen CombOk SpecMove CombMove.
Set Implicit Arguments.
Unset Strict Implicit.
Unset Printing Implicit Defensive.
Import GRing.Theory.
Local Open Scope ring_scope.
Delimit Scope R_scope with re.

Lemma solve_ok_request (LA : LinAlg) (sigmas : kdict (tdict (l_mat LA))) returns means c slv window times items :
  dicts sigmas -> from_sigmas LA sigmas returns means = Ok c -> solve LA slv c window times = (items, None) ->
  returns_known LA sigmas returns /\ (2 <= List.length (forecast_times LA sigmas))%coq_nat /\ valid_times LA sigmas times.
Proof.
move=> Hd Hc Hs.
have H1 : returns_known LA sigmas returns.
  apply: NNPP => H. by rewrite (missing_return LA _ _ _ _ _ _ _ Hd Hc H) in Hs.
have Hv : valid_times LA sigmas times.
  move=> ts Et. have [E1 [E2 E3]] := times_errors LA _ _ _ _ slv window Hd Hc H1. rewrite Et in Hs.
  case: ts Et Hs => [|t ts] Et Hs; first by rewrite E1 in Hs.
  case: (classic (List.In t (scored LA sigmas))) => Hin; last by rewrite E2 in Hs.
  split=> //. apply: NNPP => H. rewrite E3 // in Hs. move=> z Ez. apply: H. by exists z.
split=> //. split=> //. apply: NNPP => Hl. case: times Hv Hs => [ts|] Hv Hs.
  have [Hne [z Ez]] := Hv ts erefl. case: ts Ez Hne {Hv} Hs => // t ts Ez _ _. 
  have : List.In t (scored LA sigmas).
    have : List.In t (sub (scored LA sigmas) z (List.length (t :: ts))) by rewrite -Ez; left.
    rewrite /sub => H. rewrite -(List.firstn_skipn z (scored LA sigmas)) List.in_app_iff; right.
    rewrite -(List.firstn_skipn (List.length (t :: ts)) (List.skipn z _)) List.in_app_iff; by left.
  rewrite /scored. case: (forecast_times LA sigmas) Hl => [|a [|b l]] //= Hl. by case: Hl; lia.
rewrite (CombProps.schedule_short LA _ _ _ _ _ _ Hd Hc) // in Hs. lia.
Qed.

Section Total.
  Context (n : nat) (T U : 'M[R]_n) (sigmas : covs n) (means : option (mus n)) (returns : rets n).
  Hypothesis HTU : T *m U^T = 1%:M.
  Hypothesis Htr : is_trig_mx U.
  Hypothesis Hdg : forall i, (0 < U i i)%re.
  Let sigmas' := move_covs T sigmas.
  Let means' := option_map (move_mus T) means.
  Let returns' := move_rets T returns.
  Let K := List.length sigmas.
  Let K' := List.length sigmas'.
  Let LA := RLA n K.
  Let LA' := RLA n K'.
  Context (c : comb LA).
  Hypothesis Hd : dicts sigmas.
  Hypothesis Hc : from_sigmas LA sigmas returns means = Ok c.
  Hypothesis Hy : all_sym sigmas.
  Hypothesis Hinc : increasing (forecast_times LA sigmas).

  Lemma spd_move (S : 'M[R]_n) : spd S -> spd (T *m S *m T^T).
  Proof.
    move=> [Hs Hp]. split; first by rewrite /sym !trmx_mul trmxK Hs mulmxA.
    move=> x Hx. rewrite -{1}(trmxK T) qf_congr. apply: Hp. apply: contra_neq Hx => E.
    apply: unit_inj E. by rewrite unitmx_tr (unitT HTU).
  Qed.
  Lemma move_all_spd : all_spd sigmas'.
  Proof.
    have [_ [Hfe _]] := from_sigmas_inv LA _ _ _ _ Hd Hc. have Hp := factors_spd Hy Hfe.
    move=> ks tS /List.in_map_iff [k0 [<- Hin]] /= /List.in_map_iff [tS0 [<- Hin2]] /=. apply: spd_move. exact: Hp Hin Hin2.
  Qed.
  Lemma move_same_times : same_times LA' sigmas'.
  Proof.
    have [Hst _] := from_sigmas_inv LA _ _ _ _ Hd Hc. move=> ks t /List.in_map_iff [k0 [<- Hin]] /=.
    rewrite List.map_map /= times_move. exact: Hst.
  Qed.
  Lemma move_means_ok : means_ok LA' sigmas' means'.
  Proof.
    have [_ [_ [Hm _]]] := from_sigmas_inv LA _ _ _ _ Hd Hc. rewrite /means'. case: means Hm => [m|] //= Hm.
    move=> ks /List.in_map_iff [k0 [<- Hin]] /=. have [mk [E1 E2]] := Hm _ Hin.
    exists (List.map (fun tm => (fst tm, T *m snd tm)) mk).
    rewrite (kget_map (fun d => List.map (fun tm => (fst tm, T *m snd tm)) d)) E1 !List.map_map. split=> //.
  Qed.
  Lemma move_build : exists c', from_sigmas LA' sigmas' returns' means' = Ok c'.
  Proof.
    apply: healthy_build; [exact: dicts_move|exact: move_same_times|exact: move_all_spd|exact: move_means_ok].
  Qed.

  Lemma factor_move c' : from_sigmas LA' sigmas' returns' means' = Ok c' -> forall ks t, List.In ks sigmas -> List.In t (forecast_times LA sigmas) ->
    (factor LA' sigmas' (fst ks) t : 'M[R]_n) = U *m (factor LA sigmas (fst ks) t : 'M[R]_n).
  Proof.
    move=> Hc' ks t Hin Ht. have [k [Hk Ek]] := List.In_nth _ _ (EmptyString, nil) Hin.
    have := fac_move HTU Htr Hdg Hd Hc Hc' Hy Ht (introT ltP Hk). rewrite /fac expert_move /=. rewrite /expert Ek. exact.
  Qed.
  Lemma mean_at_move k t : (mean_at LA' means' k t : 'cV[R]_n) = T *m (mean_at LA means k t : 'cV[R]_n).
  Proof.
    rewrite /mean_at /means'. case: means => [m|] /=; last by rewrite mulmx0.
    rewrite (kget_map (fun d => List.map (fun tm => (fst tm, T *m snd tm)) d)). case: (dict_get _ m _) => [d|] /=; last by rewrite mulmx0.
    by rewrite (zget_map (fun v => T *m v)); case: (dict_get _ d _) => [v|] //=; rewrite mulmx0.
  Qed.
  Lemma map_sig (A : Type) (f : string * list (Z * 'M[R]_n) -> A) :
    List.map f sigmas' = List.map (fun ks => f (fst ks, List.map (fun tS => (fst tS, T *m snd tS *m T^T)) (snd ks))) sigmas.
  Proof. by rewrite /sigmas' /move_covs List.map_map. Qed.
  Lemma quad_move c' win : from_sigmas LA' sigmas' returns' means' = Ok c' -> (forall t, List.In t win -> List.In t (scored LA sigmas)) ->
    (quad (RLA n K) sigmas' means' returns' win : 'M[R]_K) = quad LA sigmas means returns win.
  Proof.
    move=> Hc' Hw. rewrite /quad. congr List.fold_left. apply: List.map_ext_in => t Ht.
    congr (l_gram _ (l_colstack _ _)). rewrite map_sig. apply: List.map_ext_in => ks Hks /=.
    have Hin := scored_prev_In LA _ _ (Hw _ Ht). rewrite /score.
    change (forecast_times (RLA n K) sigmas') with (forecast_times LA' sigmas'). rewrite times_move.
    have Ef := factor_move Hc' Hks Hin. change (factor LA' sigmas' (fst ks)) with (factor (RLA n K) sigmas' (fst ks)) in Ef.
    have Em := mean_at_move (fst ks) (prev (forecast_times LA sigmas) t). change (mean_at LA' means') with (mean_at (RLA n K) means') in Em.
    have Er := ret_move T sigmas returns t. rewrite /ret in Er.
    rewrite /= in Ef Em Er *. 
    rewrite Ef Em. change (return_at (RLA n K) returns' t) with (return_at LA' returns' t). rewrite Er.
    have E (v : 'cV[R]_n) (L : 'M[R]_n) : (U *m L)^T *m (T *m v) = L^T *m v by rewrite trmx_mul mulmxA -(mulmxA _ U^T T) (UT HTU) mulmx1.
    by rewrite !E.
  Qed.

  Theorem move_total slv slv' window times items :
    returns_optimal slv -> returns_optimal slv' -> solve LA slv c window times = (items, None) ->
    exists c' items', from_sigmas LA' sigmas' returns' means' = Ok c' /\ solve LA' slv' c' window times = (items', None) /\
    List.length items = List.length items' /\
    forall j r r', List.nth_error items j = Some (Some r) -> List.nth_error items' j = Some (Some r') ->
      r_time LA r = r_time LA' r' /\ r_weights LA' r' = r_weights LA r /\
      (r_mean LA' r' : 'cV[R]_n) = T *m (r_mean LA r : 'cV[R]_n) /\
      (r_cov LA' r' : 'M[R]_n) = T *m (r_cov LA r : 'M[R]_n) *m T^T.
  Proof.
    move=> Ho Ho' Hs. have [Hrk [Hl Hv]] := @solve_ok_request LA sigmas returns means c slv window times items Hd Hc Hs.
    have Et : forecast_times LA' sigmas' = forecast_times LA sigmas by exact: times_move.
    have Esc : scored LA' sigmas' = scored LA sigmas by rewrite /scored Et.
    have Hf' : returns_feasible slv' by move=> h p w /Ho' [].
    have [c0 Hc0] := move_build.
    have [c' [items' [Hc' [Hs' Hlen]]]] : exists c' items', from_sigmas LA' sigmas' returns' means' = Ok c' /\ solve LA' slv' c' window times = (items', None) /\
        List.length items' = List.length (positions (scored LA' sigmas') (eff (List.length (forecast_times LA' sigmas')) window) times).
      apply: healthy_run => //.
      - exact: dicts_move.
      - exact: move_same_times.
      - exact: move_all_spd.
      - exact: move_means_ok.
      - by rewrite Et.
      - move=> t. rewrite Esc /returns' /move_rets List.map_map. exact: Hrk.
      - by rewrite Et.
      - move=> ts E. rewrite Esc. exact: Hv E.
      - move=> i. rewrite Esc Et => Hin.
        have G : forall k, k = K -> spd (quad (RLA n k) sigmas' means' returns' (window_at (RLA n k) sigmas' (eff (List.length (forecast_times LA sigmas)) window) i) : 'M[R]_k).
          move=> k ->. have Ew : window_at (RLA n K) sigmas' (eff (List.length (forecast_times LA sigmas)) window) i = window_at LA sigmas (eff (List.length (forecast_times LA sigmas)) window) i.
            rewrite /window_at. change (scored (RLA n K) sigmas') with (scored LA' sigmas'). by rewrite Esc.
          rewrite Ew (quad_move Hc0).
            apply: NNPP => Hq. by rewrite (degenerate_run Hd Hc Hinc Hrk Hl Hv _ Hin Hq) in Hs.
          move=> t. rewrite /window_at /sub => H. rewrite -(List.firstn_skipn (i + 1 - eff (List.length (forecast_times LA sigmas)) window) (scored LA sigmas)) List.in_app_iff; right.
          rewrite -(List.firstn_skipn (eff (List.length (forecast_times LA sigmas)) window) (List.skipn _ (scored LA sigmas))) List.in_app_iff; by left.
        exact: (G K' (KKm' T sigmas)).
    exists c', items'. split=> //. split=> //. exact: (move_run HTU Htr Hdg Hd Hc Hc' Hy Hinc Ho Ho' Hs Hs').
  Qed.
End Total.

(** Units per asset. *)
Section Units.
  Context (n : nat) (d : 'I_n -> R) (Hd0 : forall i, (0 < d i)%re).
  Definition uT : 'M[R]_n := diag_mx (\row_i d i).
  Definition uU : 'M[R]_n := diag_mx (\row_i (/ d i)%re).
  Lemma uTU : uT *m uU^T = 1%:M.
  Proof.
    rewrite /uT /uU tr_diag_mx mulmx_diag -diag_const_mx. congr diag_mx. apply/rowP => i. rewrite !mxE. apply: Rinv_r.
    apply: Rgt_not_eq. exact: Hd0.
  Qed.
  Lemma uU_trig : is_trig_mx uU. Proof. exact: diag_mx_is_trig. Qed.
  Lemma uU_pos i : (0 < uU i i)%re. Proof. rewrite !mxE eqxx mulr1n. apply: Rinv_0_lt_compat. exact: Hd0. Qed.
  Lemma unit_covE S : unit_cov d S = uT *m S *m uT^T.
  Proof. apply/matrixP => i j. rewrite mxE /uT tr_diag_mx mul_mx_diag mul_diag_mx !mxE. by rewrite mulrAC. Qed.
  Lemma unit_vecE v : unit_vec d v = uT *m v.
  Proof. apply/colP => i. by rewrite /uT mul_diag_mx !mxE. Qed.
  Lemma unit_covsE s : unit_covs d s = move_covs uT s.
  Proof. apply: List.map_ext => ks. congr (_, _). apply: List.map_ext => tS. by rewrite unit_covE. Qed.
  Lemma unit_musE m : unit_mus d m = move_mus uT m.
  Proof. apply: List.map_ext => ks. congr (_, _). apply: List.map_ext => tS. by rewrite unit_vecE. Qed.
  Lemma unit_retsE r : unit_rets d r = move_rets uT r.
  Proof. apply: List.map_ext => ks. by rewrite unit_vecE. Qed.

  Theorem units_total (sigmas : covs n) (means : option (mus n)) (returns : rets n) (c : comb (RLA n (List.length sigmas))) slv
      (slv' : solver (RLA n (List.length (unit_covs d sigmas)))) window times items :
    let LA := RLA n (List.length sigmas) in let LA' := RLA n (List.length (unit_covs d sigmas)) in
    dicts sigmas -> from_sigmas LA sigmas returns means = Ok c -> all_sym sigmas -> increasing (forecast_times LA sigmas) ->
    returns_optimal slv -> returns_optimal slv' -> solve LA slv c window times = (items, None) ->
    exists c' items', from_sigmas LA' (unit_covs d sigmas) (unit_rets d returns) (option_map (unit_mus d) means) = Ok c' /\
      solve LA' slv' c' window times = (items', None) /\ List.length items = List.length items' /\
      forall j r r', List.nth_error items j = Some (Some r) -> List.nth_error items' j = Some (Some r') ->
        r_time LA r = r_time LA' r' /\ r_weights LA' r' = r_weights LA r /\
        (r_mean LA' r' : 'cV[R]_n) = unit_vec d (r_mean LA r : 'cV[R]_n) /\
        (r_cov LA' r' : 'M[R]_n) = unit_cov d (r_cov LA r : 'M[R]_n).
  Proof.
    move: slv'. have -> : option_map (unit_mus d) means = option_map (move_mus uT) means by case: means => [m|] //=; rewrite unit_musE.
    rewrite unit_covsE unit_retsE => slv' LA LA' Hd Hc Hy Hi Ho Ho' Hs.
    have [c' [items' [H1 [H2 [H3 H4]]]]] := move_total uTU uU_trig uU_pos Hd Hc Hy Hi Ho Ho' Hs.
    exists c', items'. split=> //. split=> //. split=> // j r r' Hj Hj'. have [E1 [E2 [E3 E4]]] := H4 j r r' Hj Hj'.
    by rewrite unit_covE unit_vecE.
  Qed.
End Units.

(** The inverse of a lower triangular matrix with positive diagonal is another. *)
Lemma trig_inv n (L : 'M[R]_n) : is_trig_mx L -> (forall i, (0 < L i i)%re) -> is_trig_mx (invmx L) /\ forall i, (0 < invmx L i i)%re.
Proof.
move=> Ht Hp. have Hu := trig_unit Ht Hp. set A := invmx L *m (invmx L)^T.
have HA : spd A by apply: spd_LLT; rewrite unitmx_inv.
case E : (chol A) => [F|]; last by have [/(_ E)] := chol_none (proj1 HA).
have [Ft [Fp FF]] := chol_is_chol (proj1 HA) E.
have HLF : is_chol (1%:M : 'M[R]_n) (L *m F).
  split; first exact: trig_mul. split; first by move=> i; rewrite trig_diag //; apply: Rmult_lt_0_compat.
  by rewrite trmx_mul mulmxA -(mulmxA L) FF /A mulmxA mulmxV // mul1mx -trmx_mul mulmxV // trmx1.
have H1 : is_chol (1%:M : 'M[R]_n) 1%:M.
  split; first exact: scalar_mx_is_trig. split; last by rewrite trmx1 mulmx1.
  move=> i. rewrite mxE eqxx. exact: Rlt_0_1.
have EF : invmx L = F by rewrite -[LHS]mulmx1 -(is_chol_inj HLF H1) mulmxA mulVmx // mul1mx.
by rewrite EF.
Qed.

(** Upper triangular changes of assets. *)
Section Upper.
  Context (n : nat) (T : 'M[R]_n).
  Hypothesis H0 : forall i j : 'I_n, (j < i)%N -> T i j = 0.
  Hypothesis Hp : forall i, (0 < T i i)%re.
  Lemma trT_trig : is_trig_mx T^T.
  Proof. apply/is_trig_mxP => i j Hij. rewrite mxE. exact: H0. Qed.
  Lemma trT_pos i : (0 < T^T i i)%re.
  Proof. by rewrite mxE. Qed.
  Lemma upper_unit : T^T \in unitmx.
  Proof. exact: trig_unit trT_trig trT_pos. Qed.
  Definition upU : 'M[R]_n := invmx T^T.
  Lemma upTU : T *m upU^T = 1%:M.
  Proof. by rewrite /upU trmx_inv trmxK mulmxV // -unitmx_tr upper_unit. Qed.

  Theorem upper_total (sigmas : covs n) (means : option (mus n)) (returns : rets n) (c : comb (RLA n (List.length sigmas))) slv
      (slv' : solver (RLA n (List.length (move_covs T sigmas)))) window times items :
    let LA := RLA n (List.length sigmas) in let LA' := RLA n (List.length (move_covs T sigmas)) in
    dicts sigmas -> from_sigmas LA sigmas returns means = Ok c -> all_sym sigmas -> increasing (forecast_times LA sigmas) ->
    returns_optimal slv -> returns_optimal slv' -> solve LA slv c window times = (items, None) ->
    exists c' items', from_sigmas LA' (move_covs T sigmas) (move_rets T returns) (option_map (move_mus T) means) = Ok c' /\
      solve LA' slv' c' window times = (items', None) /\ List.length items = List.length items' /\
      forall j r r', List.nth_error items j = Some (Some r) -> List.nth_error items' j = Some (Some r') ->
        r_time LA r = r_time LA' r' /\ r_weights LA' r' = r_weights LA r /\
        (r_mean LA' r' : 'cV[R]_n) = T *m (r_mean LA r : 'cV[R]_n) /\
        (r_cov LA' r' : 'M[R]_n) = T *m (r_cov LA r : 'M[R]_n) *m T^T.
  Proof.
    move=> LA LA' Hd Hc Hy Hi Ho Ho' Hs. have [H1 H2] := trig_inv trT_trig trT_pos.
    exact: (move_total upTU H1 H2 Hd Hc Hy Hi Ho Ho' Hs).
  Qed.
End Upper.
