(** * The CM-IEWMA cell in exact arithmetic: when it builds, schedule, units (C124, C125). *)
From Coq Require Import Reals Lra ZArith String List Lia.
Set Warnings "-notation-overridden,-ambiguous-paths".
From mathcomp Require Import all_ssreflect all_algebra.
From Verif Require Import RStruct MatR Spec Num Py ListFacts Ewma EwmaTot SpecEwma EwmaProps Combination SpecComb CombFacts CombBuild CombProps CombItems EwmaAny EwmaProps5 FromEwmas SpecFrom FromEwmasProps RealLA SpecCombR CombReal CombExact CombOk CombScale SpecMove CombMoveRun SpecRank SpecRankR RankFacts FromRank SpecFromR FromRun FromUnits SpecExp ExpDiag CmIewma CmRun.
Set Implicit Arguments.
Unset Strict Implicit.
Unset Printing Implicit Defensive.
Import GRing.Theory.
Local Open Scope ring_scope.
Delimit Scope R_scope with re.

Lemma scale_sym n c (S : 'M[R]_n) : sym S -> sym (scale_variances c S).
Proof.
move=> Hs. apply/matrixP => i j. rewrite !mxE eq_sym. by case: eqP => [->|_] //; have := congr1 (fun M : 'M_n => M i j) Hs; rewrite mxE => ->.
Qed.
Lemma scale_unit n c (d : 'I_n -> R) (S : 'M[R]_n) : scale_variances c (unit_cov d S) = unit_cov d (scale_variances c S).
Proof. apply/matrixP => i j. rewrite !mxE. case: (i == j) => //. toR; ring. Qed.
Lemma item_psd n (to_mat : frame (N := XR) string -> 'M[R]_n) (o : IEWMA (N := XR)) : reads_matrix n to_mat -> nan_free_item n o ->
  (forall p q, (p < n)%coq_nat -> (q < n)%coq_nat -> cov_at o p q = cov_at o q p) ->
  (forall z : nat -> R, 0 <= rsum n (fun p => rsum n (fun q => z p * z q * xval (cov_at o p q))))%re -> psd (to_mat (icov o)).
Proof.
move=> Hr Hf Hsy Hq. split; first exact: (item_sym Hr Hsy Hf). move=> x.
pose z p := if insub p is Some p' then x p' 0 else 0 : R.
have -> : x = \col_i z i by apply/colP => i; rewrite mxE /z valK.
by rewrite (item_qf Hr).
Qed.

Section Cm.
  Context (label : option xr * option xr -> string)
          (returns : frame (N := XR) time) (x : nat -> nat -> R) (fast : option xr * option xr) (rest : list (option xr * option xr))
          (mpv mpc : nat) (lamda : R).
  Notation pairs := (fast :: rest).
  Let n := List.length (fcols returns).
  Context (K : nat).
  Hypothesis HK : List.length (firsts (List.map label pairs)) = K.
  Hypothesis Hlab : forall p q, List.In p pairs -> List.In q pairs -> label p = label q -> p = q.
  Context (to_mat : frame (N := XR) string -> 'M[R]_n) (to_vec : list xr -> 'cV[R]_n).
  Notation LA := (RLA n K).
  Notation reg := (scale_variances (1 + lamda)).
  Notation build h := (cm_build (N := XR) LA label to_mat to_vec reg h pairs mpv mpc).
  Notation cell slv h window := (cm_iewma (N := XR) LA label to_mat to_vec reg slv h pairs mpv mpc window).
  Notation run p h := (iterated_ewma (pair_params (N := XR) mpv mpc None false p) h).

  Hypothesis Hr : reads_matrix n to_mat.
  Hypothesis Hv : valid_returns returns.
  Hypothesis Hx : returns_are false returns x.
  Hypothesis Hp : positive_halflives pairs.
  Let Hcl : clip_is None None. Proof. by left. Qed.
  Let Hx1 : returns_are true returns x. Proof. exact: Hx'. Qed.

  Lemma hlen : List.length (findex returns) = List.length (fvals returns). Proof. by case: Hv => -[]. Qed.
  Lemma hinc : increasing (findex returns). Proof. by case: Hv => _ []. Qed.

  Lemma mat_sym p o outs : List.In p pairs -> run p returns = Ok outs -> List.In o outs -> nan_free_item n o ->
    sym (cm_mat (N := XR) LA label to_mat reg fast p o).
  Proof.
  move=> Hin E Ho Hf. have Hs : sym (to_mat (icov o)) by apply: (item_sym Hr) => //; exact: (run_sym Hv Hx1 Hp Hcl Hin E Ho).
  rewrite /cm_mat. case: String.eqb => //. exact: scale_sym.
  Qed.
  Lemma all_symmetric outs sigmas : cm_issued (N := XR) LA label to_mat reg fast rest mpv mpc returns outs sigmas ->
    (forall p, List.In p pairs -> run p returns = Ok (outs p)) ->
    (forall p o, List.In p pairs -> List.In o (outs p) -> nan_free_item n o) -> all_sym sigmas.
  Proof.
  move=> [_ [_ [_ [_ A]]]] Ho Hf ks tS Hin Hin2. have [p [Hpin Ek]] := A ks Hin. subst ks.
  move: Hin2; rewrite /= List.in_map_iff => -[o [<- Hoin]] /=. apply: (mat_sym Hpin (Ho p Hpin) Hoin). exact: Hf Hpin Hoin.
  Qed.

  Section Data.
    Hypothesis Hl : (Nat.max 1 mpv <= List.length (findex returns))%coq_nat.
    Hypothesis Hm : moved false x n (first_pos mpv).
    Let fp := (first_pos mpv + first_pos mpc)%coq_nat.

    Lemma cm_outs : exists outs, forall p, List.In p pairs -> run p returns = Ok (outs p) /\ List.map itime (outs p) = List.skipn fp (findex returns).
    Proof.
    have [sigmas [means [outs [Ho _]]]] := @same_schedule_outs LA label to_mat to_vec returns x pairs mpv mpc None None false Hv Hx1 Hp Hcl Hl Hm.
    by exists outs.
    Qed.

    Theorem cm_builds : (0 < lamda)%re ->
      (forall outs o, run fast returns = Ok outs -> List.In o outs -> nan_free_item n o /\ forall i, (i < n)%coq_nat -> (0 < xval (cov_at o i i))%re) ->
      (forall p outs o, List.In p rest -> run p returns = Ok outs -> List.In o outs -> definite_item n o) ->
      exists c, build returns = Ok c /\ K_of LA c = K.
    Proof.
    move=> Hl0 Hfast Hrest. have [outs Ho] := cm_outs.
    have Ho1 p : List.In p pairs -> run p returns = Ok (outs p) by move=> /Ho [].
    have [sigmas Hi] := @cm_issue XR LA label to_mat reg fast rest mpv mpc erefl Hlab returns outs hlen (increasing_NoDup _ hinc) Ho1.
    have Eb := cm_built (N := XR) LA label to_mat to_vec reg fast rest mpv mpc returns outs sigmas Hi.
    have [_ [K1 [D [G A]]]] := Hi.
    have [Hne Eft] := cm_first (N := XR) LA label to_mat reg fast rest mpv mpc Hlab returns outs sigmas Hi.
    have Hst : same_times LA sigmas.
      move=> ks t Hin. have [p [Hpin Ek]] := A ks Hin. subst ks. rewrite Eft (proj2 (Ho fast (or_introl erefl))) /= /cm_covs List.map_map /=.
      by rewrite (proj2 (Ho p Hpin)).
    have Hfe : factors_exist LA sigmas.
      apply: spd_factors => ks tS Hin Hin2. have [p [Hpin Ek]] := A ks Hin. subst ks.
      move: Hin2; rewrite /= List.in_map_iff => -[o [<- Hoin]] /=. have Er := Ho1 p Hpin.
      have Hsy := run_sym Hv Hx1 Hp Hcl Hpin Er Hoin.
      rewrite /cm_mat. case: String.eqb_spec => [El|El].
        have Ep : p = fast by apply: Hlab => //; left.
        subst p. have [Hf Hd] := Hfast _ _ Er Hoin. apply: scale_spd.
        - by toR; lra.
        - apply: (item_psd Hr Hf Hsy) => z.
          have [h1 [h2 [HS _]]] := @pair_settings pairs mpv mpc None None false Hp Hcl fast Hpin.
          have [_ [_ [_ Hz]]] := covariance_structure _ _ _ _ _ _ _ _ HS Hv Hx1 _ _ Er Hoin. apply: Hz => q Hq E0.
          have [s Es] := Hf q q Hq Hq. by rewrite E0 in Es.
        - move=> i. rewrite (Hr Hf). apply: Hd. exact/ltP.
      case: Hpin Er Hoin => [Ep|Hpin] Er Hoin; first by subst p.
      have Hd := Hrest p _ _ Hpin Er Hoin. apply/(item_spd Hr Hsy) => //. exact: (proj1 Hd).
    exists (built LA sigmas (rows_of_frame (N := XR) LA to_vec returns) None). split.
      rewrite Eb. by apply: from_sigmas_ok.
    rewrite -HK -K1 List.map_length. by [].
    Qed.

    Hypothesis Hf : forall p outs o, List.In p pairs -> run p returns = Ok outs -> List.In o outs -> nan_free_item n o.
    Theorem cm_dates slv window covs weights : returns_feasible slv -> cell slv returns window = Ok (covs, weights) ->
      let T := (List.length (findex returns) - fp)%coq_nat in let w := eff T window in
      (2 <= T)%coq_nat /\ List.map fst covs = List.skipn (fp + w)%coq_nat (findex returns) /\
      List.map fst weights = List.skipn (fp + w)%coq_nat (findex returns) /\
      (forall tS, List.In tS covs -> spd (snd tS : 'M[R]_n)) /\ (forall tw, List.In tw weights -> feasible K (snd tw)).
    Proof.
    move=> Hs Hcell T w. have [outs Ho] := cm_outs.
    have Ho1 p : List.In p pairs -> run p returns = Ok (outs p) by move=> /Ho [].
    have [sigmas Hi] := @cm_issue XR LA label to_mat reg fast rest mpv mpc erefl Hlab returns outs hlen (increasing_NoDup _ hinc) Ho1.
    have [c [items [Hc [Hrun [Ec Ew]]]]] := cell_inv (N := XR) LA label to_mat to_vec reg fast rest mpv mpc slv returns window covs weights Hcell.
    have [L1 [L2 L3]] := cm_schedule (N := XR) LA label to_mat to_vec reg fast rest mpv mpc erefl Hlab returns outs sigmas c slv window items hlen hinc Ho1 Hi Hc Hrun.
    have [C1 C2] := cell_lists (N := XR) LA label to_mat to_vec reg fast rest mpv mpc erefl Hlab returns outs sigmas c slv window items hlen hinc Ho1 Hi Hc Hrun.
    have [_ Eft] := cm_first (N := XR) LA label to_mat reg fast rest mpv mpc Hlab returns outs sigmas Hi.
    rewrite (proj2 (Ho fast (or_introl erefl))) in Eft. rewrite Eft List.skipn_length -/T skipn_twice in L1 L2.
    rewrite Ec Ew C1 C2 !List.map_map /= L2 -/w. have -> : (fp + w)%coq_nat = (w + fp)%coq_nat by lia.
    split=> //. split=> //. split=> //.
    have Hsy : all_sym sigmas by apply: (all_symmetric Hi Ho1) => p o Hin Hoin; exact: (Hf Hin (Ho1 p Hin) Hoin).
    have Eb := cm_built (N := XR) LA label to_mat to_vec reg fast rest mpv mpc returns outs sigmas Hi. rewrite Hc in Eb.
    have [_ [K1 [D _]]] := Hi. have EK : K = List.length sigmas by rewrite -HK -K1 List.map_length.
    have G r : List.In r items -> spd (r_cov LA r : 'M[R]_n) /\ feasible K (r_weights LA r).
      move=> Hin. apply: (exact_K EK D (esym Eb) Hsy Hs Hrun). exact: List.in_map.
    split=> [tS|tw]; rewrite List.in_map_iff => -[r [<- /G []]] //.
    Qed.
  End Data.

  Section Units.
    Context (s : nat -> R) (g : frame (N := XR) time).
    Hypothesis Hs0 : forall j, (0 < s j)%re.
    Hypothesis Hg : rescaled s returns g.
    Hypothesis Hrv : reads_vector n to_vec.
    Hypothesis Hf : forall p outs o, List.In p pairs -> run p returns = Ok outs -> List.In o outs -> finite_item n o.
    Let d (i : 'I_n) : R := s i.

    Lemma cm_covs_units p outs outs' : List.In p pairs -> run p returns = Ok outs -> List.Forall2 (rescaled_item s) outs outs' ->
      cm_covs (N := XR) LA label to_mat reg fast p outs' = List.map (fun tS => (fst tS, unit_cov d (snd tS))) (cm_covs (N := XR) LA label to_mat reg fast p outs).
    Proof.
    move=> Hin Er HF. have [E _] := covs_units K Hr Hv Hrv Hf Hin Er HF.
    have Ecv o : cm_covs (N := XR) LA label to_mat reg fast p o =
      List.map (fun tS => (fst tS, if String.eqb (label p) (label fast) then reg (snd tS) else snd tS)) (expert_covs (N := XR) LA to_mat o).
      rewrite /cm_covs /expert_covs List.map_map. by apply: List.map_ext => oo /=; rewrite /cm_mat; case: String.eqb.
    rewrite !Ecv E !List.map_map. apply: List.map_ext => o /=. by case: String.eqb; rewrite ?scale_unit.
    Qed.

    Theorem cm_units slv slv' window covs weights :
      returns_optimal slv -> returns_optimal slv' -> cell slv returns window = Ok (covs, weights) ->
      match cell slv' g window with
      | Ok (covs', weights') => covs' = List.map (fun tS => (fst tS, unit_cov d (snd tS))) covs /\ weights' = weights
      | Raise e => e = AttributeError
      end.
    Proof.
    move=> Hso Hso' Hcell.
    have [c [items [Hc [Hrun [Ec Ew]]]]] := cell_inv (N := XR) LA label to_mat to_vec reg fast rest mpv mpc slv returns window covs weights Hcell.
    have [outs Er] := cm_runs (N := XR) LA label to_mat to_vec reg fast rest mpv mpc returns c Hc.
    have [G1 [G2 [[G3 G5] G4]]] := Hg.
    pose outs' p := match run p g with Ok o => o | Raise _ => nil end.
    have Er' p : List.In p pairs -> run p g = Ok (outs' p) /\ List.Forall2 (rescaled_item s) (outs p) (outs' p).
      move=> Hin. have := rescale_run (pair_params (N := XR) mpv mpc None false p) _ _ _ Hs0 Hv Hg. rewrite (Er p Hin) /outs' /same_run.
      by case: (run p g).
    have Er1 p : List.In p pairs -> run p g = Ok (outs' p) by move=> /Er' [].
    have ginc' : increasing (findex g) by rewrite G1; exact: hinc.
    have [sigmas Hi] := @cm_issue XR LA label to_mat reg fast rest mpv mpc erefl Hlab returns outs hlen (increasing_NoDup _ hinc) Er.
    have [sigmas' Hi'] := @cm_issue XR LA label to_mat reg fast rest mpv mpc erefl Hlab g outs' G3 (increasing_NoDup _ ginc') Er1.
    have Eb := cm_built (N := XR) LA label to_mat to_vec reg fast rest mpv mpc returns outs sigmas Hi. rewrite Hc in Eb.
    have Eb' := cm_built (N := XR) LA label to_mat to_vec reg fast rest mpv mpc g outs' sigmas' Hi'.
    have [_ [K1 [D1 [A1 B1]]]] := Hi. have [_ [K1' [D1' [A1' B1']]]] := Hi'.
    have Es : unit_covs d sigmas = sigmas'.
      apply: kdict_ext.
      - rewrite List.map_map /=. exact: (proj1 D1).
      - rewrite K1' List.map_map /=. exact: (esym K1).
      - move=> k. rewrite (kget_map (fun dd => List.map (fun tS => (fst tS, unit_cov d (snd tS))) dd)).
        case: (List.in_dec string_dec k (firsts (List.map label pairs))) => Hk.
          have /List.in_map_iff [p [Ek Hin]] : List.In k (List.map label pairs) by apply/firsts_In.
          subst k. rewrite (A1 p Hin) (A1' p Hin) /=. congr Some. symmetry. exact: (cm_covs_units Hin (Er p Hin) (proj2 (Er' p Hin))).
        have -> : dict_get String.eqb sigmas k = None by apply/kget_none; rewrite K1.
        by have -> : dict_get String.eqb sigmas' k = None by apply/kget_none; rewrite K1'.
    have EK : K = List.length sigmas by rewrite -HK -K1 List.map_length.
    have Hsy : all_sym sigmas by apply: (all_symmetric Hi Er) => p o Hin Hoin; case: (Hf Hin (Er p Hin) Hoin).
    have [Hif _] := cm_known (N := XR) LA label to_mat to_vec reg fast rest mpv mpc erefl Hlab returns outs sigmas hlen hinc Er Hi.
    have [c' [items' [Hc' [Hrun' [EL Hall]]]]] :=
      @units_K n d sigmas K EK None _ c slv slv' window None _ Hs0 D1 (esym Eb) Hsy Hif Hso Hso' Hrun.
    have Hcg : build g = Ok c' by rewrite Eb' -Es (rows_units HK Hv Hx Hg Hrv).
    case Ecell : (cell slv' g window) => [[covs' weights']|e]; last first.
      move: Ecell. rewrite /cm_iewma Hcg /= Hrun' /=.
      elim: (items') => [//|[r|] l IH] /=; last by case.
      case: (mapM _ l) IH => [rs|e'] //=.
    have [c2 [it2 [Hc2 [Hrun2 [Ec2 Ew2]]]]] := cell_inv (N := XR) LA label to_mat to_vec reg fast rest mpv mpc slv' g window covs' weights' Ecell.
    rewrite Hcg in Hc2. case: Hc2 => Ecc. subst c2. rewrite Hrun' in Hrun2. case: Hrun2 => Eit. subst items'.
    have [C1 C2] := cell_lists (N := XR) LA label to_mat to_vec reg fast rest mpv mpc erefl Hlab returns outs sigmas c slv window items hlen hinc Er Hi Hc Hrun.
    have [C1' C2'] := cell_lists (N := XR) LA label to_mat to_vec reg fast rest mpv mpc erefl Hlab g outs' sigmas' c' slv' window it2 G3 ginc' Er1 Hi' Hcg Hrun'.
    rewrite Ec Ew Ec2 Ew2 C1 C2 C1' C2' List.map_map.
    rewrite !List.map_length in EL.
    have {}Hall j r r' : List.nth_error items j = Some r -> List.nth_error it2 j = Some r' ->
      r_time LA r = r_time LA r' /\ r_weights LA r' = r_weights LA r /\ (r_cov LA r' : 'M[R]_n) = unit_cov d (r_cov LA r : 'M[R]_n).
      move=> E1 E2. have [||H1 [H2 [_ H4]]] := Hall j r r'; by rewrite ?List.nth_error_map ?E1 ?E2.
    move: EL Hall. clear. elim: items it2 => [|r l IH] [|r' l'] //= [EL] H.
    have [H1 [H2 H4]] := H 0%N r r' erefl erefl. have [I1 I2] := IH l' EL (fun j => H j.+1).
    by rewrite I1 I2 H1 H2 H4.
    Qed.
  End Units.
End Cm.
