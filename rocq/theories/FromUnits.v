(** * from_ewmas(...).solve(...) in exact arithmetic: schedule and units (C121, C122). *)
From Coq Require Import Reals Lra ZArith String List Lia.
Set Warnings "-notation-overridden,-ambiguous-paths".
From mathcomp Require Import all_ssreflect all_algebra.
From Verif Require Import RStruct MatR Spec Num Py ListFacts Ewma EwmaTot SpecEwma EwmaProps Combination SpecComb CombFacts CombBuild CombProps CombItems EwmaAny EwmaProps5 FromEwmas SpecFrom FromEwmasProps RealLA SpecCombR CombReal CombExact CombOk CombScale SpecMove CombMoveRun SpecRank SpecRankR RankFacts FromRank SpecFromR FromRun.
Set Implicit Arguments.
Unset Strict Implicit.
Unset Printing Implicit Defensive.
Import GRing.Theory.
Local Open Scope ring_scope.
Delimit Scope R_scope with re.

Lemma kdict_ext (V : Type) (d d' : kdict V) : List.NoDup (List.map fst d) -> List.map fst d' = List.map fst d ->
  (forall k, dict_get String.eqb d k = dict_get String.eqb d' k) -> d = d'.
Proof.
move=> Hn E H. have Hn' : List.NoDup (List.map fst d') by rewrite E.
have := @values_eq V V (fun _ v w => v = w) d d' Hn Hn' (esym E) (fun k v w Hv Hw => ltac:(rewrite H Hw in Hv; by case: Hv)).
elim=> [//|[k v] [k' v'] l l' [/= -> ->] _ ->] //.
Qed.

Lemma inc_skipn k (l : list Z) : increasing l -> increasing (List.skipn k l).
Proof. elim: k l => [//|k IH] [//|a l] H /=. apply: IH. exact: increasing_tail H. Qed.

(** The theorems of the combination, for a number of experts given in another form. *)
Lemma exact_K n (sigmas : covs n) K (EK : K = List.length sigmas) means returns (c : comb (RLA n K)) slv window times items ex r :
  dicts sigmas -> from_sigmas (RLA n K) sigmas returns means = Ok c -> all_sym sigmas ->
  returns_feasible slv -> solve (RLA n K) slv c window times = (items, ex) -> List.In (Some r) items ->
  spd (r_cov (RLA n K) r : 'M[R]_n) /\ feasible K (r_weights (RLA n K) r).
Proof. subst K. move=> H1 H2 H3 H4 H5 H6. by have [? [? _]] := exact_cov H1 H2 H3 H4 H5 H6. Qed.
Lemma units_K n (d : 'I_n -> R) (sigmas : covs n) K (EK : K = List.length sigmas) means returns (c : comb (RLA n K)) slv slv' window times items :
  let LA := RLA n K in
  (forall i, (0 < d i)%re) ->
  dicts sigmas -> from_sigmas LA sigmas returns means = Ok c -> all_sym sigmas -> increasing (forecast_times LA sigmas) ->
  returns_optimal slv -> returns_optimal slv' -> solve LA slv c window times = (items, None) ->
  exists c' items', from_sigmas LA (unit_covs d sigmas) (unit_rets d returns) (option_map (unit_mus d) means) = Ok c' /\
    solve LA slv' c' window times = (items', None) /\ List.length items = List.length items' /\
    forall j r r', List.nth_error items j = Some (Some r) -> List.nth_error items' j = Some (Some r') ->
      r_time LA r = r_time LA r' /\ r_weights LA r' = r_weights LA r /\
      (r_mean LA r' : 'cV[R]_n) = unit_vec d (r_mean LA r : 'cV[R]_n) /\
      (r_cov LA r' : 'M[R]_n) = unit_cov d (r_cov LA r : 'M[R]_n).
Proof.
move=> LA0 Hd. subst K. have EK : List.length (unit_covs d sigmas) = List.length sigmas by rewrite /unit_covs List.map_length.
move: slv'. rewrite /LA0 => slv' H1 H2 H3 H4 H5 H6 H7.
have := @units_total n d Hd sigmas means returns c slv. rewrite EK => G. exact: (G slv' window times items H1 H2 H3 H4 H5 H6 H7).
Qed.

Section From.
  Context (label : option xr * option xr -> string)
          (returns : frame (N := XR) time) (x : nat -> nat -> R) (pairs : list (option xr * option xr))
          (mpv mpc : nat) (clip_at : option xr) (rc : option R) (mean : bool).
  Let n := List.length (fcols returns).
  Context (K : nat).
  Hypothesis HK : List.length (firsts (List.map label pairs)) = K.
  Context (to_mat : frame (N := XR) string -> 'M[R]_n) (to_vec : list xr -> 'cV[R]_n).
  Notation LA := (RLA n K).
  Notation comb_of h := (from_ewmas (N := XR) LA label to_mat to_vec h pairs mpv mpc clip_at mean).
  Notation run p h := (iterated_ewma (pair_params (N := XR) mpv mpc clip_at mean p) h).

  Hypothesis Hr : reads_matrix n to_mat.
  Hypothesis Hv : valid_returns returns.
  Hypothesis Hx : returns_are false returns x.
  Hypothesis Hp : positive_halflives pairs.
  Hypothesis Hcl : clip_is clip_at rc.

  Lemma Hx' : returns_are true returns x.
  Proof. move=> k j Hk Hj. case: (Hx Hk Hj) => [->|[_ []]] //. by left. Qed.

  Section Schedule.
    Hypothesis Hl : (Nat.max 1 mpv <= List.length (findex returns))%coq_nat.
    Hypothesis Hm : moved mean x n (first_pos mpv).
    Hypothesis Hf : forall p outs o, List.In p pairs -> run p returns = Ok outs -> List.In o outs -> nan_free_item n o.

    Theorem run_schedule (c : comb LA) slv window items :
      returns_feasible slv -> comb_of returns = Ok c -> solve LA slv c window None = (items, None) ->
      let fp := (first_pos mpv + first_pos mpc)%coq_nat in
      let T := (List.length (findex returns) - fp)%coq_nat in let w := eff T window in
      (2 <= T)%coq_nat /\ List.length items = (T - w)%coq_nat /\
      forall j r, List.nth_error items j = Some (Some r) ->
        r_time LA r = List.nth (fp + w + j)%coq_nat (findex returns) Z0 /\ spd (r_cov LA r : 'M[R]_n) /\ feasible K (r_weights LA r).
    Proof.
    move=> Hs Hc Hrun fp T w.
    have [sigmas [means [outs [Ho [D1 [G1 [E [K1 [Hst [Ht _]]]]]]]]]] :=
      @same_schedule_outs LA label to_mat to_vec returns x pairs mpv mpc clip_at rc mean Hv Hx' Hp Hcl Hl Hm.
    rewrite Hc in E.
    have EK : K = List.length sigmas by rewrite -HK -K1 List.map_length.
    have Hne : sigmas <> nil.
      move=> E0. have := @CombProps.schedule_short LA sigmas _ _ c slv window D1 (esym E). rewrite E0 /= => H.
      by rewrite H in Hrun; [|lia].
    have Eft : forecast_times LA sigmas = List.skipn fp (findex returns).
      case: (sigmas) Hne Ht => [//|ks s] _ Ht. exact: (Ht ks (or_introl erefl)).
    have HT : List.length (forecast_times LA sigmas) = T by rewrite Eft List.skipn_length.
    have Hinc : increasing (forecast_times LA sigmas).
      rewrite Eft. apply: inc_skipn. by case: Hv => _ [].
    have Hk : returns_known LA sigmas (rows_of_frame (N := XR) LA to_vec returns).
      move=> t Hin. have Hwf : List.length (findex returns) = List.length (fvals returns) by case: Hv => -[].
      rewrite (@rows_keys XR LA to_vec returns Hwf returns Hwf).
      apply: (@skipn_In _ fp). rewrite -Eft. move: Hin. rewrite /scored. by case: (forecast_times LA sigmas) => [//|a l] /=; right.
    have H2 : (2 <= List.length (forecast_times LA sigmas))%coq_nat.
      case: (le_lt_dec 2 (List.length (forecast_times LA sigmas))) => // H1.
      rewrite (@CombProps.schedule_short LA sigmas _ _ c slv window D1 (esym E)) in Hrun; [by []|lia].
    have [L1 L2] := @CombProps.schedule LA sigmas _ _ c slv window items D1 (esym E) Hinc Hk H2 Hrun.
    rewrite HT in H2 L1 L2. split=> //. split; first exact: L1.
    have Hsy : all_sym sigmas.
      move=> [k d] tS Hin Hin2. have Eg : dict_get String.eqb sigmas k = Some d by apply: kget_in => //; apply: (proj1 D1).
      move: Eg; rewrite G1 => Eg'. move: (last_value_in _ _ _ Eg'). rewrite List.in_map_iff => -[p [[_ Ed] Hpin]]. rewrite -Ed in Hin2.
      move: Hin2; rewrite /= List.in_map_iff => -[o [<- Hoin]] /=. have [Er _] := Ho p Hpin.
      apply: (item_sym Hr); last exact: Hf Hpin Er Hoin. exact: (run_sym Hv Hx' Hp Hcl Hpin Er Hoin).
    move=> j r Hj. split.
      rewrite (L2 j r Hj) Eft nth_skipn_eq. congr List.nth. rewrite -/w. lia.
    have Hin := List.nth_error_In _ _ Hj.
    exact: (exact_K EK D1 (esym E) Hsy Hs Hrun Hin).
    Qed.
  End Schedule.

  Section Units.
    Context (s : nat -> R) (g : frame (N := XR) time).
    Hypothesis Hs0 : forall j, (0 < s j)%re.
    Hypothesis Hg : rescaled s returns g.
    Hypothesis Hrv : reads_vector n to_vec.
    Hypothesis Hf : forall p outs o, List.In p pairs -> run p returns = Ok outs -> List.In o outs -> finite_item n o.
    Let d (i : 'I_n) : R := s i.

    Lemma nan_xr : @nisnan XR nnan = true. Proof. by []. Qed.
    Lemma item_cols p outs o : run p returns = Ok outs -> List.In o outs -> List.length (fcols (icov o)) = n.
    Proof. move=> E Ho. have [_ [_ [_ [-> _]]]] := out_shape _ _ _ _ nan_xr Hv E Ho. by []. Qed.

    Lemma covs_units p outs outs' : List.In p pairs -> run p returns = Ok outs -> List.Forall2 (rescaled_item s) outs outs' ->
      expert_covs (N := XR) LA to_mat outs' = List.map (fun tS => (fst tS, unit_cov d (snd tS))) (expert_covs (N := XR) LA to_mat outs) /\
      expert_means (N := XR) LA to_vec outs' = List.map (fun tS => (fst tS, unit_vec d (snd tS))) (expert_means (N := XR) LA to_vec outs).
    Proof.
    move=> Hin Er. have H o : List.In o outs -> finite_item n o /\ List.length (fcols (icov o)) = n.
      move=> Ho. split; [exact: Hf Hin Er Ho|exact: item_cols Er Ho].
    move=> HF. elim: HF H => [//|o o' l l' Ho _ IH] H. have [I1 I2] := IH (fun o1 H1 => H o1 (or_intror H1)).
    have [[Fc Fm] Ec] := H o (or_introl erefl). have [E1 [_ [_ E2]]] := Ho. rewrite Ec in E2.
    have Fm' i : (i < n)%coq_nat -> exists r, SpecEwma.mean_at o' i = Fin r.
      move=> Hi. have [Em _] := E2 i Hi. have [r Er2] := Fm i Hi. rewrite Em Er2 /times /=. by eexists.
    have Fc' : nan_free_item n o'.
      move=> i j Hi Hj. have [_ [_ Eq]] := E2 i Hi. have [r Er2] := Fc i j Hi Hj. rewrite Eq // Er2 /times /=. by eexists.
    split; rewrite /expert_covs /expert_means /= E1; congr (_ :: _) => //; congr (_, _).
      apply/matrixP => i j. rewrite mxE !Hr //. have [_ [_ Eq]] := E2 i (ltP (ltn_ord i)). rewrite (Eq j (ltP (ltn_ord j))).
      have [r ->] := Fc i j (ltP (ltn_ord i)) (ltP (ltn_ord j)). by [].
    apply/colP => i. rewrite mxE !(Hrv) //. have [Em _] := E2 i (ltP (ltn_ord i)). rewrite -/(SpecEwma.mean_at o' i) Em.
    rewrite -/(SpecEwma.mean_at o i). have [r ->] := Fm i (ltP (ltn_ord i)). by [].
    Qed.
    Lemma rows_units : rows_of_frame (N := XR) LA to_vec g = unit_rets d (rows_of_frame (N := XR) LA to_vec returns).
    Proof.
    have [G1 [G2 [[G3 G5] G4]]] := Hg. have [[F1 F2] _] := Hv. rewrite /rows_of_frame /unit_rets G1.
    apply: (@list_eq_nth _ (Z0, 0)).
      by rewrite List.map_length !List.combine_length !List.map_length -G3 -F1 G1.
    move=> k. rewrite List.combine_length List.map_length -G3 G1 => Hk. have {}Hk : (k < List.length (findex returns))%coq_nat by lia.
    rewrite List.combine_nth ?List.map_length -?G3 ?G1 //.
    rewrite (nth_map_lt _ _ _ (Z0, 0)) ?List.combine_length ?List.map_length -?F1 ?PeanoNat.Nat.min_id //.
    rewrite List.combine_nth ?List.map_length -?F1 //=. congr (_, _).
    rewrite !(nth_map_lt _ _ _ nil) -?G3 -?F1 ?G1 //.
    have Fe j : (j < n)%coq_nat -> exists r, entry returns k j = Fin r.
      move=> Hj. case: (Hx Hk Hj) => [->|[_ []]] //. by eexists.
    apply/colP => i. rewrite mxE !Hrv //.
      rewrite -/(entry g k i) G4 //; last exact/ltP. rewrite -/(entry returns k i). by have [r ->] := Fe i (ltP (ltn_ord i)).
    move=> j Hj. rewrite -/(entry g k j) G4 //. have [r ->] := Fe j Hj. by eexists.
    Qed.

    Theorem run_units (c : comb LA) slv slv' window times items :
      returns_optimal slv -> returns_optimal slv' -> comb_of returns = Ok c -> solve LA slv c window times = (items, None) ->
      exists c' items', comb_of g = Ok c' /\ solve LA slv' c' window times = (items', None) /\ List.length items = List.length items' /\
      forall j r r', List.nth_error items j = Some (Some r) -> List.nth_error items' j = Some (Some r') ->
        r_time LA r = r_time LA r' /\ r_weights LA r' = r_weights LA r /\
        (r_mean LA r' : 'cV[R]_n) = unit_vec d (r_mean LA r : 'cV[R]_n) /\
        (r_cov LA r' : 'M[R]_n) = unit_cov d (r_cov LA r : 'M[R]_n).
    Proof.
    move=> Ho Ho' Hc Hrun. have [outs Er] := runs_of _ _ _ _ _ _ _ _ _ _ _ Hc.
    have Hwf : List.length (findex returns) = List.length (fvals returns) by case: Hv => -[].
    have Hinc : increasing (findex returns) by case: Hv => _ [].
    have [G1 [G2 [[G3 G5] G4]]] := Hg.
    pose outs' p := match run p g with Ok o => o | Raise _ => nil end.
    have Er' p : List.In p pairs -> run p g = Ok (outs' p) /\ List.Forall2 (rescaled_item s) (outs p) (outs' p).
      move=> Hin. have := rescale_run (pair_params (N := XR) mpv mpc clip_at mean p) _ _ _ Hs0 Hv Hg. rewrite (Er p Hin) /outs' /same_run.
      by case: (run p g).
    have [sigmas [means [E [K1 [K2 [D1 [D2 [A1 [A2 _]]]]]]]]] :=
      @is_from_sigmas XR LA label to_mat to_vec returns pairs mpv mpc clip_at mean outs nan_xr Hwf (increasing_NoDup _ Hinc) Er.
    have [sigmas' [means' [E' [K1' [K2' [D1' [D2' [A1' [A2' _]]]]]]]]] :=
      @is_from_sigmas XR LA label to_mat to_vec g pairs mpv mpc clip_at mean outs' nan_xr G3 (increasing_NoDup _ (eq_ind_r increasing Hinc G1)) (fun p Hin => proj1 (Er' p Hin)).
    have Es : unit_covs d sigmas = sigmas'.
      apply: kdict_ext.
      - rewrite List.map_map /=. exact: (proj1 D1).
      - rewrite K1' List.map_map /=. by rewrite -K1.
      - move=> k. rewrite (kget_map (fun dd => List.map (fun tS => (fst tS, unit_cov d (snd tS))) dd)) A1 A1' -last_value_map List.map_map.
        congr last_value. apply: List.map_ext_in => p Hin /=. congr (_, _). symmetry.
        exact: (proj1 (covs_units Hin (Er p Hin) (proj2 (Er' p Hin)))).
    have Em : unit_mus d means = means'.
      apply: kdict_ext.
      - rewrite List.map_map /=. exact: (proj1 D2).
      - rewrite K2' List.map_map /=. by rewrite -K2.
      - move=> k. rewrite (kget_map (fun dd => List.map (fun tS => (fst tS, unit_vec d (snd tS))) dd)) A2 A2' -last_value_map List.map_map.
        congr last_value. apply: List.map_ext_in => p Hin /=. congr (_, _). symmetry.
        exact: (proj2 (covs_units Hin (Er p Hin) (proj2 (Er' p Hin)))).
    rewrite Hc in E. rewrite E' -Es -Em rows_units.
    have EK : K = List.length sigmas by rewrite -HK -K1 List.map_length.
    have Hsy : all_sym sigmas.
      move=> [k dd] tS Hin Hin2. have Eg : dict_get String.eqb sigmas k = Some dd by apply: kget_in => //; apply: (proj1 D1).
      move: Eg; rewrite A1 => Eg'. move: (last_value_in _ _ _ Eg'). rewrite List.in_map_iff => -[p [[_ Ed] Hpin]]. rewrite -Ed in Hin2.
      move: Hin2; rewrite /= List.in_map_iff => -[o [<- Hoin]] /=. have Ep := Er p Hpin.
      apply: (item_sym Hr); last by case: (Hf Hpin Ep Hoin). exact: (run_sym Hv Hx' Hp Hcl Hpin Ep Hoin).
    have Hif : increasing (forecast_times LA sigmas).
      case: (sigmas) D1 A1 => [//|[k dd] ss] D1 A1 /=. have Eg : dict_get String.eqb ((k, dd) :: ss) k = Some dd by rewrite /= String.eqb_refl.
      move: Eg; rewrite A1 => Eg'. move: (last_value_in _ _ _ Eg'). rewrite List.in_map_iff => -[p [[_ <-] Hpin]].
      rewrite /expert_covs List.map_map /=. by case: (times_sub _ _ _ nan_xr Hwf Hinc (Er p Hpin)).
    exact: (@units_K n d sigmas K EK (Some means) _ c slv slv' window times items Hs0 D1 (esym E) Hsy Hif Ho Ho' Hrun).
    Qed.
  End Units.
End From.
