(** * construct_factor_covariance: closed form and schedule. *)
From Coq Require Import Classical_Prop Reals Lra ZArith String List Lia.
Set Warnings "-notation-overridden,-ambiguous-paths".
From mathcomp Require Import all_ssreflect all_algebra.
From Verif Require Import RStruct MatR Num Py ListFacts Ewma EwmaPrefix Spec SpecEwma EwmaProps EwmaProps2 EwmaProps3 EwmaProps4 EwmaProps5 EwmaClosed EwmaFirst Combination SpecComb CombFacts CombBuild CombSolve CombRun CombProps CombItems RealLA SpecCombR CombReal CombExact FromEwmas SpecFrom FromEwmasProps ExpUtils CombPerm Trader TraderMain BacktestProps RetComb RetEwm FactorModel SpecFactor.
Set Implicit Arguments.
Unset Strict Implicit.
Unset Printing Implicit Defensive.
Import GRing.Theory.
Local Open Scope ring_scope.
Delimit Scope R_scope with re.
Delimit Scope Z_scope with z.

Lemma skipnE A i (l : seq A) : List.skipn i l = drop i l.
Proof. elim: l i => [|x l IH] [|i] //=. Qed.
Lemma firstnE A i (l : seq A) : List.firstn i l = take i l.
Proof. elim: l i => [|x l IH] [|i] //=. by rewrite IH. Qed.
Lemma combineE A B (l : seq A) (m : seq B) : List.combine l m = zip l m.
Proof. elim: l m => [|x l IH] [|y m] //=. by rewrite IH. Qed.

Lemma kset_new V (d : kdict V) a v : ~ List.In a (map fst d) -> dict_set String.eqb d a v = d ++ [:: (a, v)].
Proof.
  elim: d => //= [[b w] d IH] /= H. case: (String.eqb_spec a b) => [E|_]; first by case: H; left.
  rewrite IH // => H1. apply: H. by right.
Qed.
Lemma kdict_of_nodup V (l : kdict V) : List.NoDup (map fst l) -> dict_of String.eqb l = l.
Proof.
  rewrite /dict_of. have G : forall d : kdict V, List.NoDup (map fst (d ++ l)) ->
    List.fold_left (fun d kv => dict_set String.eqb d (fst kv) (snd kv)) l d = d ++ l.
  { elim: l => [|[a v] l IH] d /= H; first by rewrite cats0.
    have Hn : ~ List.In a (map fst d).
    { move: H. rewrite map_cat /= => H H1. apply: (List.NoDup_remove_2 _ _ _ H). apply/List.in_or_app. by left. }
    rewrite (kset_new _ Hn) IH -?catA //. }
  move=> H. by rewrite (G [::]).
Qed.

Section Cfc.
  Context (k K : nat) (label : option xr * option xr -> string) (slv : solver (RLA k K)).
  Context (times : seq Z) (fs : seq 'cV[R]_k) (pairs : seq (option xr * option xr)).
  Hypothesis Hinc : increasing times.
  Hypothesis Hsz : size fs = size times.
  Hypothesis Hk : (0 < k)%N.
  Hypothesis Hhl : positive_halflives pairs.
  Hypothesis Hlab : List.NoDup (map label pairs).

  Definition fx (fs : seq 'cV[R]_k) (j s : nat) : R := if @insub _ _ [subType of 'I_k] j is Some i then nth 0 fs s i ord0 else 0.

  Lemma xrow_size (v : 'cV[R]_k) : size (xrow v) = k.
  Proof. by rewrite size_map size_enum_ord. Qed.
  Lemma xframe_valid : valid_returns (N := XR) (xframe times fs).
  Proof.
    split; first split.
    - rewrite /= List.map_length. exact: esym Hsz.
    - apply/List.Forall_forall => r /List.in_map_iff [v [<- _]]. transitivity k; first exact: xrow_size.
      symmetry. exact: size_nseq.
    - split=> //=. by case: k Hk.
  Qed.
  Lemma cols_len : List.length (fcols (xframe times fs)) = k.
  Proof. exact: size_nseq. Qed.
  Lemma xframe_returns b : returns_are b (xframe times fs) (fx fs).
  Proof.
    move=> s j. rewrite cols_len /= => Hs Hj. left. rewrite /entry /= !nthE.
    have Hs' : (s < size fs)%N by rewrite Hsz; apply/ltP.
    rewrite (nth_map 0) //. have Hj' : (j < k)%N by apply/ltP.
    rewrite /xrow (nth_map (Ordinal Hj')) ?size_enum_ord //. rewrite /fx insubT. congr (Fin (nth 0 fs s _ _)).
    apply: val_inj. by rewrite /= nth_enum_ord.
  Qed.

  (** Settings of the runs. *)
  Definition pp (p : option xr * option xr) := pair_params (N := XR) k (2 * k) None false p.
  Lemma pp_settings p : List.In p pairs -> exists h1 h2, settings (pp p) h1 h2 h1 h2 None.
  Proof.
    move=> H. have [h1 [h2 [Hs _]]] := @pair_settings pairs k (2 * k) None None false Hhl (or_introl erefl) p H.
    by exists h1, h2.
  Qed.

  (** First row with a move. *)
  Lemma first_moveP s : (s < size fs)%N -> nth 0 fs s <> 0 -> exists2 m, (m <= s)%N & first_move (fx fs) k m.
  Proof.
    have [m Hm] := ubnP s. elim: m s Hm => // m IH s Hm Hs Hne.
    case: (Classical_Prop.classic (exists2 s', (s' < s)%N & nth 0 fs s' <> 0)) => [[s' H1 H2]|Hno].
    - case: (IH s') => //; [lia|lia|]. move=> q Hq Hf. exists q => //. lia.
    - exists s => //. split.
      + case: (Classical_Prop.classic (exists i, nth 0 fs s i ord0 <> 0)) => [[i Hi]|Hall].
        * exists (nat_of_ord i). split; first exact/ltP. by rewrite /fx valK.
        * case: Hne. apply/colP => i. rewrite [in RHS]mxE. case: (Req_EM_T (nth 0 fs s i ord0) 0) => // H. case: Hall. by exists i.
      + move=> j q /ltP Hj /ltP Hq. rewrite /fx insubT. case: (Req_EM_T (nth 0 fs q (Ordinal Hj) ord0) 0) => // H.
        case: Hno. exists q => //. move=> E. by rewrite E mxE in H.
  Qed.

  Lemma from_filter a q : (a < size times)%N -> [seq t <- drop q times | Z.leb (nth Z0 times a) t] = drop (maxn a q) times.
  Proof.
    move=> Ha. rewrite -{1}(cat_take_drop (a - q) (drop q times)) filter_cat.
    have -> : filter (Z.leb (nth Z0 times a)) (take (a - q) (drop q times)) = [::].
    { rewrite -filterE. apply: ListFacts.filter_none => t /(In_nthP Z0) [j]. rewrite size_take size_drop => Hj ->.
      have Hj1 : (j < a - q)%N by move: Hj; case: ifP => //; lia.
      rewrite nth_take // nth_drop. have := @inc_nth_lt times (q + j) a Hinc. move=> H. apply/Z.leb_gt. apply: H => //. lia. }
    rewrite /= drop_drop. have -> : (a - q + q = maxn a q)%N by rewrite maxnC maxnE; lia.
    apply: filter_keep => t /(In_nthP Z0) [j]. rewrite size_drop => Hj ->. rewrite nth_drop. apply/Z.leb_le. apply: inc_nth_le => //; lia.
  Qed.

  Definition outs (p : option xr * option xr) : seq (IEWMA (N := XR)) :=
    if iterated_ewma (N := XR) (pp p) (xframe times fs) is Ok o then o else [::].
  Definition kept (start : Z) (o : seq (IEWMA (N := XR))) : seq (Z * 'M[R]_k) :=
    [seq (itime i, to_matrix k (icov i)) | i <- o & Z.leb start (itime i)].
  Definition experts (start : Z) : covs k :=
    if pairs is p :: ps then
      (label p, [seq (ts.1, plus_diag (/ 20)%re ts.2) | ts <- kept start (outs p)]) :: [seq (label q, kept start (outs q)) | q <- ps]
    else [::].
  Definition finish (start : Z) : res (seq (Z * 'M[R]_k)) :=
    do c <- from_sigmas (RLA k K) (experts start) (zip times fs) None;
    let g := solve (RLA k K) slv c (Some 10%N) None in
    if g.2 is Some e then Raise e else
    do items <- mapM (@result_item k K) g.1;
    Ok (dict_of Z.eqb items).

  Lemma zip_kept (o : seq (IEWMA (N := XR))) start :
    [seq ts <- [seq (ts.1, to_matrix k (icov ts.2)) | ts <- [seq (itime i, i) | i <- o]] | Z.leb start ts.1] = kept start o :> seq (Z * 'M[R]_k).
  Proof. by rewrite -map_comp filter_map. Qed.

  Lemma cfc_form start : (forall p, List.In p pairs -> iterated_ewma (N := XR) (pp p) (xframe times fs) = Ok (outs p)) ->
    pairs <> [::] -> construct_factor_covariance label slv times fs pairs start = finish start.
  Proof.
    move=> H Hne. rewrite /construct_factor_covariance.
    have Hnd : List.NoDup times by apply: increasing_NoDup.
    rewrite (@results_dict XR label (xframe times fs) pairs k (2 * k) None false outs) //; last first.
    { move=> p Hp. apply: (@times_nodup XR (pp p) (xframe times fs)) (H p Hp) => //=. rewrite List.map_length. exact: esym. }
    cbn [bind]. rewrite kdict_of_nodup; last by rewrite mapE -map_comp; exact: Hlab.
    rewrite /map_nested_dicts !mapE -!map_comp. rewrite /finish /experts.
    case: pairs Hne Hlab => [//|p ps] _ Hl. rewrite /pyget /=. rewrite String.eqb_refl /=.
    set a := map _ _; set b := map _ ps.
    have -> : a = [seq (ts.1, plus_diag (/ 20)%re ts.2) | ts <- kept start (outs p)] by rewrite /a !mapE zip_kept.
    have -> // : b = [seq (label q, kept start (outs q)) | q <- ps].
    apply: eq_map => q /=. by rewrite !mapE zip_kept.
  Qed.

  (** Where the forecasts of every expert start. *)
  Definition warm (m : nat) : nat := (maxn k.-1 m + (2 * k).-1)%N.

  Lemma no_mean p j s h : centred (use_mean (pp p)) h (fx fs) j s = fx fs j s.
  Proof. by []. Qed.
  Lemma outs_times m p : first_move (fx fs) k m -> (maxn k.-1 m < size times)%N -> List.In p pairs ->
    iterated_ewma (N := XR) (pp p) (xframe times fs) = Ok (outs p) /\ map itime (outs p) = drop (warm m) times.
  Proof.
    move=> Hm Hlt Hp. have [h1 [h2 HS]] := pp_settings Hp.
    have Hv := xframe_valid. have Hx := xframe_returns (nan_to_num (pp p)).
    have [] := @schedule_first (pp p) (xframe times fs) (fx fs) h1 h2 h1 h2 HS Hv Hx m.
    - by rewrite cols_len.
    - move: Hlt. rewrite /first_pos /=. change (Datatypes.length times) with (size times). move: (size times) => T. rewrite /maxn. case: (ltnP k.-1 m) => ? ?; lia.
    - move=> o [E Et]. rewrite /outs E. split=> //. rewrite -mapE Et /first_pos /= skipnE. congr drop.
      rewrite /warm /maxn. case: (ltnP k.-1 m); lia.
  Qed.
  Lemma outs_late m p : first_move (fx fs) k m -> (size times <= maxn k.-1 m)%N -> List.In p pairs ->
    iterated_ewma (N := XR) (pp p) (xframe times fs) = Raise IndexError.
  Proof.
    move=> Hm Hlt Hp. have [h1 [h2 HS]] := pp_settings Hp.
    apply: (@schedule_late (pp p) (xframe times fs) (fx fs) h1 h2 h1 h2 HS xframe_valid (xframe_returns _) m); first by rewrite cols_len.
    move: Hlt. rewrite /first_pos /=. change (Datatypes.length times) with (size times). move: (size times) => T. rewrite /maxn. case: (ltnP k.-1 m) => ? ?; lia.
  Qed.
  Lemma outs_none p : (forall s, (s < size times)%N -> nth 0 fs s = 0) -> List.In p pairs ->
    iterated_ewma (N := XR) (pp p) (xframe times fs) = Raise IndexError.
  Proof.
    move=> Hz Hp. have [h1 [h2 HS]] := pp_settings Hp.
    apply: (@schedule_none (pp p) (xframe times fs) (fx fs) h1 h2 h1 h2 HS xframe_valid (xframe_returns _)).
    move=> j s _ /ltP Hs. rewrite no_mean /fx. case: insubP => // i _ _. by rewrite Hz // mxE.
  Qed.
  (** Either all runs fail with IndexError, or all succeed with the same times. *)
  Lemma move_cases : (forall s, (s < size times)%N -> nth 0 fs s = 0) \/ exists2 m, (m < size times)%N & first_move (fx fs) k m.
  Proof.
    case: (Classical_Prop.classic (exists2 s, (s < size times)%N & nth 0 fs s <> 0)) => [[s Hs Hne]|Hno].
    - right. have [|m Hm Hf] := @first_moveP s _ Hne; first by rewrite Hsz. exists m => //. exact: leq_ltn_trans Hs.
    - left=> s Hs. apply: NNPP => H. apply: Hno. by exists s.
  Qed.
  Lemma runs_fail start : pairs <> [::] -> (forall p, List.In p pairs -> iterated_ewma (N := XR) (pp p) (xframe times fs) = Raise IndexError) ->
    construct_factor_covariance label slv times fs pairs start = Raise IndexError.
  Proof.
    move=> Hne H. rewrite /construct_factor_covariance /ewma_results. case: pairs Hne H => // p ps _ H /=.
    by rewrite /pp in H; rewrite H //=; left.
  Qed.

  (** *** The forecasts handed to the combination *)
  Section Moved.
    Context (m a : nat).
    Hypothesis Hm : first_move (fx fs) k m.
    Hypothesis Hlt : (maxn k.-1 m < size times)%N.
    Hypothesis Ha : (a < size times)%N.
    Hypothesis Hne : pairs <> [::].
    Notation start := (nth Z0 times a).
    Definition first_kept : nat := maxn a (warm m).

    Lemma kept_times p : List.In p pairs -> map fst (kept start (outs p)) = drop first_kept times.
    Proof.
      move=> Hp. have [_ E] := outs_times Hm Hlt Hp. rewrite /kept -map_comp.
      rewrite (@eq_map _ _ _ itime) // -from_filter // -E filter_map. by [].
    Qed.
    Lemma experts_times ks : List.In ks (experts start) -> map fst ks.2 = drop first_kept times.
    Proof.
      have Hin : forall p, List.In p pairs -> map fst (kept start (outs p)) = drop first_kept times by exact: kept_times.
      rewrite /experts. case: pairs Hin => [//|p ps] Hin [<-|].
      - rewrite /= -map_comp. rewrite (@eq_map _ _ _ fst) // Hin //. by left.
      - move=> /In_map [q [<- Hq]] /=. apply: Hin. by right.
    Qed.
    Lemma experts_keys : map fst (experts start) = map label pairs.
    Proof. rewrite /experts. case: pairs => //= p ps. by rewrite -map_comp. Qed.
    Lemma experts_size : size (experts start) = size pairs.
    Proof. by rewrite -(size_map fst) experts_keys size_map. Qed.
    Lemma experts_dicts : dicts (experts start).
    Proof.
      split; first by rewrite mapE experts_keys.
      apply/List.Forall_forall => ks Hks. rewrite mapE experts_times // -skipnE. apply: CombSolve.NoDup_skipn. exact: increasing_NoDup.
    Qed.
    Lemma experts_forecast : forecast_times (RLA k K) (experts start) = drop first_kept times.
    Proof.
      have := experts_times. have : experts start <> [::] by rewrite /experts; case: pairs Hne.
      case: (experts start) => // ks l _ H. rewrite /forecast_times mapE. apply: (H ks). by left.
    Qed.
    Lemma experts_same : same_times (RLA k K) (experts start).
    Proof. move=> ks t Hks. by rewrite experts_forecast mapE experts_times. Qed.
    Lemma experts_increasing : increasing (forecast_times (RLA k K) (experts start)).
    Proof.
      rewrite experts_forecast. move: Hinc. rewrite -{1}(cat_take_drop first_kept times). elim: (take _ _) => //= x l IH H.
      apply: IH. exact: increasing_tail H.
    Qed.
    Lemma experts_known : returns_known (RLA k K) (experts start) (zip times fs).
    Proof.
      move=> t Ht. rewrite mapE -/unzip1 unzip1_zip; last by rewrite Hsz.
      have := scored_incl _ _ _ Ht. rewrite experts_forecast. rewrite -skipnE => H. exact: FromEwmasProps.skipn_In H.
    Qed.
    Lemma kept_sym p tS : List.In p pairs -> List.In tS (kept start (outs p)) -> sym tS.2.
    Proof.
      move=> Hp /In_map [o [<- /In_filter [Ho _]]] /=. have [E _] := outs_times Hm Hlt Hp.
      have [h1 [h2 HS]] := pp_settings Hp.
      have [Hs _] := @covariance_structure (pp p) (xframe times fs) (fx fs) h1 h2 h1 h2 None HS xframe_valid (xframe_returns _) (outs p) o E Ho.
      rewrite cols_len in Hs. rewrite /to_matrix. case: ifP => // _; last by rewrite /sym trmx0.
      apply/matrixP => i j. rewrite !mxE. have := Hs j i. rewrite /cov_at !nthE => -> //; exact/ltP.
    Qed.
    Lemma experts_sym : all_sym (experts start).
    Proof.
      move=> ks tS. have Hin : forall p tS, List.In p pairs -> List.In tS (kept start (outs p)) -> sym tS.2 by exact: kept_sym.
      rewrite /experts. case: pairs Hin => [//|p ps] Hin [<-|].
      - move=> /In_map [ts [<- H]] /=. have Hts := Hin p ts (or_introl erefl) H. rewrite /sym /plus_diag linearD linearZ /= tr_diag_mx. by rewrite Hts.
      - move=> /In_map [q [<- Hq]] /=. apply: Hin. by right.
    Qed.
  End Moved.

  Lemma result_items its l : mapM (@result_item k K) its = Ok l ->
    exists rs, its = map Some rs /\ l = [seq (r_time (RLA k K) r, (r_cov (RLA k K) r : 'M[R]_k)) | r <- rs].
  Proof.
    elim: its l => [|o its IH] l /=; first by case=> <-; exists [::].
    case: o => [r|] //=. case E: (mapM _ its) => [l'|] //= [<-]. have [rs [-> ->]] := IH _ E. by exists (r :: rs).
  Qed.

  (** The times of the combined covariances, for F forecasts and the window 10. *)
  Lemma finish_ok m a c g : first_move (fx fs) k m -> (maxn k.-1 m < size times)%N -> (a < size times)%N -> pairs <> [::] ->
    from_sigmas (RLA k K) (experts (nth Z0 times a)) (zip times fs) None = Ok c ->
    solve (RLA k K) slv c (Some 10%N) None = (g, None) ->
    let p0 := first_kept m a in
    (p0.+1 < size times)%N /\
    forall rs, g = map Some rs -> map (r_time (RLA k K)) rs = drop (p0 + minn 10 (size times - 1 - p0)) times.
  Proof.
    move=> Hm Hlt Ha Hne Hc Hg p0.
    have Hd := experts_dicts Hm Hlt Ha. have Hf := experts_forecast Hm Hlt Ha Hne. rewrite -/p0 in Hf.
    have Hlen : List.length (forecast_times (RLA k K) (experts (nth Z0 times a))) = (size times - p0)%N by rewrite Hf -size_drop.
    have Hp0 : (p0.+1 < size times)%N.
    { rewrite ltnNge. apply/negP => Hle. have := schedule_short (RLA k K) _ _ _ _ slv (Some 10%N) Hd Hc. rewrite Hlen Hg.
      have H : (size times - p0 <= 1)%coq_nat by lia. by move/(_ H). }
    split=> // rs Er.
    have H2 : (2 <= List.length (forecast_times (RLA k K) (experts (nth Z0 times a))))%coq_nat by rewrite Hlen; lia.
    have [L1 L2] := schedule (RLA k K) _ _ _ _ slv (Some 10%N) g Hd Hc (experts_increasing Hm Hlt Ha Hne) (experts_known Hm Hlt Ha Hne) H2 Hg.
    rewrite Hlen in L1 L2. have Ew : eff (size times - p0) (Some 10%N) = minn 10 (size times - 1 - p0).
    { rewrite /eff. change Nat.min with Nat.min. rewrite /minn. case: ltnP; lia. }
    rewrite Ew in L1 L2. rewrite Er in L1 L2.
    have Hsz2 : size rs = (size times - p0 - minn 10 (size times - 1 - p0))%N by rewrite -(size_map Some); exact: L1.
    apply: (@eq_from_nth _ Z0) => [|j]; first by rewrite size_map size_drop Hsz2 subnDA.
    rewrite size_map => Hj. case Ej: rs Hj => [//|r0 rs0] Hj. rewrite -Ej in Hj *. rewrite (nth_map r0) //.
    rewrite (L2 j (nth r0 rs j)).
    - rewrite Hf nthE !nth_drop. congr nth. lia.
    - rewrite List.nth_error_map. have -> // : List.nth_error rs j = Some (nth r0 rs j).
      rewrite -nthE. apply: List.nth_error_nth'. exact/ltP.
  Qed.
End Cfc.
