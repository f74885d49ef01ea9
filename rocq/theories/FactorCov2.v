(** * construct_factor_covariance: what is combined; shorter data. *)
From Coq Require Import Classical_Prop Reals Lra ZArith String List Lia.
Set Warnings "-notation-overridden,-ambiguous-paths".
From mathcomp Require Import all_ssreflect all_algebra.
From Verif Require Import RStruct MatR Num Py ListFacts XRFacts Ewma EwmaPrefix Spec SpecEwma EwmaFirst Combination SpecComb CombFacts CombBuild CombSolve CombRun CombProps CombItems RealLA SpecCombR CombReal CombExact FromEwmas SpecFrom FromEwmasProps ExpUtils CombPerm Trader TraderMain BacktestProps RetComb RetEwm FactorModel SpecFactor FactorCov.
Set Implicit Arguments.
Unset Strict Implicit.
Unset Printing Implicit Defensive.
Import GRing.Theory.
Local Open Scope ring_scope.
Delimit Scope R_scope with re.
Delimit Scope Z_scope with z.

Lemma exact_cov_K n (s : covs n) K (HK : K = List.length s) (c : comb (RLA n K)) (slv : solver (RLA n K)) returns means items ex r :
  dicts s -> from_sigmas (RLA n K) s returns means = Ok c -> all_sym s -> returns_feasible slv ->
  solve (RLA n K) slv c (Some 10%N) None = (items, ex) -> List.In (Some r) items ->
  spd (r_cov (RLA n K) r : 'M[R]_n) /\ feasible K (r_weights (RLA n K) r) /\
  exists F, factors_at s (r_time (RLA n K) r) F /\
    invmx (r_cov (RLA n K) r : 'M[R]_n) = avg_factor K F (r_weights (RLA n K) r) *m (avg_factor K F (r_weights (RLA n K) r))^T.
Proof.
  subst K => Hd Hc Hy Hf Hs Hin. have [H1 [H2 [F [H3 [H4 _]]]]] := exact_cov Hd Hc Hy Hf Hs Hin. split=> //. split=> //. by exists F.
Qed.

Section Cfc2.
  Context (k K : nat) (label : option xr * option xr -> string) (slv : solver (RLA k K)).
  Context (pairs : seq (option xr * option xr)).
  Hypothesis Hk : (0 < k)%N.
  Hypothesis Hhl : positive_halflives pairs.
  Hypothesis Hlab : List.NoDup (map label pairs).
  Hypothesis HK : K = size pairs.

  (** A completed run. *)
  Lemma cfc_ok times (fs : seq 'cV[R]_k) a covs : increasing times -> size fs = size times -> (a < size times)%N ->
    construct_factor_covariance label slv times fs pairs (nth Z0 times a) = Ok covs ->
    exists m c rs, first_move (fx fs) k m /\ (maxn k.-1 m < size times)%N /\ pairs <> [::] /\
      from_sigmas (RLA k K) (experts label times fs pairs (nth Z0 times a)) (zip times fs) None = Ok c /\
      solve (RLA k K) slv c (Some 10%N) None = (map Some rs, None) /\
      covs = [seq (r_time (RLA k K) r, (r_cov (RLA k K) r : 'M[R]_k)) | r <- rs] /\
      let p0 := first_kept k m a in
      (p0.+1 < size times)%N /\ map fst covs = drop (p0 + minn 10 (size times - 1 - p0)) times.
  Proof.
    move=> Hinc Hsz Ha Hcov.
    have Hne : pairs <> [::] by move: Hcov; rewrite /construct_factor_covariance; case: pairs.
    case: (move_cases Hsz Hk) => [Hz|[m Hm1 Hm]].
    { have Fl p (Hp : List.In p pairs) := outs_none Hinc Hsz Hk Hhl Hz Hp. by rewrite runs_fail in Hcov. }
    case: (ltnP (maxn k.-1 m) (size times)) => Hlt; last first.
    { have Fl p (Hp : List.In p pairs) := outs_late Hinc Hsz Hk Hhl Hm Hlt Hp. by rewrite runs_fail in Hcov. }
    rewrite cfc_form // in Hcov; last by move=> p Hp; exact: (outs_times Hinc Hsz Hk Hhl Hm Hlt Hp).1.
    move: Hcov. rewrite /finish. case Hc: (from_sigmas _ _ _ _) => [c|] //=.
    case Hg: (solve _ _ _ _ _) => [g ex] /=. case: ex Hg => // Hg.
    case Ei: (mapM _ g) => [l|] //= [E]. have [rs [Eg El]] := result_items Ei.
    have [Hp0 Ht] := finish_ok Hinc Hsz Hk Hhl Hlab Hm Hlt Ha Hne Hc Hg. have {}Ht := Ht rs Eg.
    have Hl : map fst l = drop (first_kept k m a + minn 10 (size times - 1 - first_kept k m a)) times by rewrite El -map_comp -Ht.
    have El2 : covs = l.
    { rewrite -E. apply: dict_of_nodup. rewrite mapE Hl -skipnE. apply: CombSolve.NoDup_skipn. exact: increasing_NoDup. }
    exists m, c, rs. rewrite El2 -Eg. split=> //.
  Qed.

  Lemma cfc_cov times (fs : seq 'cV[R]_k) a covs tS : increasing times -> size fs = size times -> (a < size times)%N ->
    returns_feasible slv -> construct_factor_covariance label slv times fs pairs (nth Z0 times a) = Ok covs -> List.In tS covs ->
    spd tS.2 /\ exists w F, feasible K w /\ factors_at (experts label times fs pairs (nth Z0 times a)) tS.1 F /\
      invmx tS.2 = avg_factor K F w *m (avg_factor K F w)^T.
  Proof.
    move=> Hinc Hsz Ha Hf Hcov Hin. have [m [c [rs [Hm [Hlt [Hne [Hc [Hs [E _]]]]]]]]] := cfc_ok Hinc Hsz Ha Hcov.
    move: Hin. rewrite E => /In_map [r [<- Hr]] /=.
    have HKs : K = List.length (experts label times fs pairs (nth Z0 times a)) by rewrite HK -(@experts_size k label times fs pairs a).
    have Hin : List.In (Some r) (map Some rs) by apply/In_map; exists r.
    have [H1 [H2 [F [H3 H4]]]] := exact_cov_K HKs (experts_dicts Hinc Hsz Hk Hhl Hlab Hm Hlt Ha) Hc (experts_sym Hinc Hsz Hk Hhl Hm Hlt) Hf Hs Hin.
    split=> //. by exists (r_weights (RLA k K) r), F.
  Qed.

  (** Shorter data *)
  Lemma frame_take_x times (fs : seq 'cV[R]_k) L : frame_take L (xframe times fs) = xframe (take L times) (take L fs).
  Proof. by rewrite /frame_take /xframe /= !firstnE map_take. Qed.
  Lemma fx_take (fs : seq 'cV[R]_k) L j s : (s < L)%N -> fx (take L fs) j s = fx fs j s.
  Proof. move=> Hs. by rewrite /fx nth_take. Qed.
  Lemma first_move_take (fs : seq 'cV[R]_k) L m : (m < L)%N -> first_move (fx fs) k m -> first_move (fx (take L fs)) k m.
  Proof.
    move=> HL [[j [Hj H1]] H2]. split; first by exists j; rewrite fx_take.
    move=> i s Hi Hs. rewrite fx_take; first exact: H2. lia.
  Qed.
  Lemma increasing_take L l : increasing l -> increasing (take L l).
  Proof. move=> H. apply: (@increasing_app_l _ (drop L l)). change (increasing (take L l ++ drop L l)). by rewrite cat_take_drop. Qed.

  Lemma outs_take times (fs : seq 'cV[R]_k) L m p : increasing times -> size fs = size times -> (maxn k.-1 m < L)%N -> (L <= size times)%N ->
    first_move (fx fs) k m -> List.In p pairs ->
    exists more, outs times fs p = outs (take L times) (take L fs) p ++ more /\ List.Forall (fun o => List.In (itime o) (drop L times)) more.
  Proof.
    move=> Hinc Hsz HmL HL Hm Hp.
    have HmL' : (m < L)%N by move: HmL; rewrite /maxn; case: (ltnP k.-1 m); lia.
    have Hst : size (take L fs) = size (take L times) by rewrite !size_take Hsz.
    have Hlt' : (maxn k.-1 m < size (take L times))%N by rewrite size_takel.
    have [E1 _] := outs_times (increasing_take L Hinc) Hst Hk Hhl (first_move_take HmL' Hm) Hlt' Hp.
    have [E2 _] := outs_times Hinc Hsz Hk Hhl Hm (leq_trans HmL HL) Hp.
    have Hnd : List.NoDup times by apply: increasing_NoDup.
    have := @EwmaPrefix.no_look_ahead XR (pp k p) (xframe times fs) L erefl.
    rewrite frame_take_x E1 E2 /= List.map_length => H. have [] := H _ Hnd; first exact: esym Hsz.
    move=> more [[Em] Hmore]. exists more. split; first exact: Em. by rewrite -skipnE.
  Qed.

  Lemma cfc_prefix times (fs : seq 'cV[R]_k) L a m covs : increasing times -> size fs = size times -> (L <= size times)%N ->
    construct_factor_covariance label slv times fs pairs (nth Z0 times a) = Ok covs ->
    first_move (fx fs) k m -> (first_kept k m a + 10 < L)%N ->
    construct_factor_covariance label slv (take L times) (take L fs) pairs (nth Z0 times a) = Ok (take (L - (first_kept k m a + 10)) covs).
  Proof.
    move=> Hinc Hsz HL Hcov Hm Hp0. set p0 := first_kept k m a in Hp0 *.
    have Hw : (maxn k.-1 m < L)%N.
    { have H1 : (warm k m <= p0)%N by apply: leq_maxr. have H2 : (maxn k.-1 m <= warm k m)%N by apply: leq_addr. lia. }
    have HaL : (a < L)%N by have H1 : (a <= p0)%N := leq_maxl _ _; lia.
    have Ha : (a < size times)%N by lia.
    have Hst : size (take L fs) = size (take L times) by rewrite !size_take Hsz.
    have HsL : size (take L times) = L by rewrite size_takel.
    have Hinc' := increasing_take L Hinc.
    have HmL' : (m < L)%N by move: Hw; rewrite /maxn; case: (ltnP k.-1 m); lia.
    have Hm' := first_move_take HmL' Hm.
    have Hlt' : (maxn k.-1 m < size (take L times))%N by rewrite HsL.
    have Ha' : (a < size (take L times))%N by rewrite HsL.
    have Est : nth Z0 times a = nth Z0 (take L times) a by rewrite nth_take.
    have [m2 [c [rs [Hm2 [Hlt [Hne [Hc [Hs [E [_ Ht]]]]]]]]]] := cfc_ok Hinc Hsz Ha Hcov.
    have Em : m2 = m.
    { case: Hm Hm2 => [[j [Hj H1]] H2] [[j' [Hj' H1']] H2']. case: (ltngtP m m2) => // H.
      - case: H1. apply: H2' => //. exact/ltP.
      - case: H1'. apply: H2 => //. exact/ltP. }
    rewrite {m2}Em in Hm2 Hlt Ht.
    rewrite [in LHS]Est cfc_form //; last by move=> p Hp; exact: (outs_times Hinc' Hst Hk Hhl Hm' Hlt' Hp).1.
    set s' := experts label times fs pairs (nth Z0 times a) in Hc.
    set s := experts label (take L times) (take L fs) pairs (nth Z0 (take L times) a).
    have Hkp p : List.In p pairs -> exists ext, kept k (nth Z0 times a) (outs times fs p) = kept k (nth Z0 times a) (outs (take L times) (take L fs) p) ++ ext.
    { move=> Hp. have [more [-> _]] := outs_take Hinc Hsz Hw HL Hm Hp. rewrite /kept filter_cat map_cat. by eexists. }
    have Hext : extends s s'.
    { rewrite /s /s' /experts -Est. case: pairs Hkp => [_|p ps Hkp]; first by constructor.
      constructor.
      - split=> //=. have [|ext ->] := Hkp p; first by left. rewrite map_cat. by eexists.
      - have {}Hkp : forall q, List.In q ps -> exists ext, kept k (nth Z0 times a) (outs times fs q) = kept k (nth Z0 times a) (outs (take L times) (take L fs) q) ++ ext.
          by move=> q Hq; apply: Hkp; right.
        elim: ps Hkp => [_|q ps IH Hkp] /=; first by constructor. constructor.
        + split=> //=. apply: Hkp. by left.
        + apply: IH => q' Hq'. apply: Hkp. by right. }
    have Hd := experts_dicts Hinc Hsz Hk Hhl Hlab Hm Hlt Ha. rewrite -/s' in Hd.
    have Hd' := experts_dicts Hinc' Hst Hk Hhl Hlab Hm' Hlt' Ha'. rewrite -/s in Hd'.
    have [_ [Hfe [_ _]]] := from_sigmas_inv (RLA k K) _ _ _ _ Hd Hc.
    have Hfe' : factors_exist (RLA k K) s.
    { move=> ks tS Hks HtS. have [ks' [Hks' [Ek [ext Ex]]]] : exists ks', List.In ks' s' /\ fst ks = fst ks' /\ exists ext, snd ks' = snd ks ++ ext.
      { move: Hext Hks. elim=> //= x y l l' H _ IH [<-|Hin]; first by exists y; case: H; split; [left|].
        have [z [Hz Hz2]] := IH Hin. exists z. split=> //. by right. }
      apply: (Hfe ks') => //. rewrite Ex. apply/List.in_or_app. by left. }
    have Hc' : from_sigmas (RLA k K) s (zip (take L times) (take L fs)) None = Ok (built (RLA k K) s (zip (take L times) (take L fs)) None).
    { have Hsm : same_times (RLA k K) s by move=> ks t; apply: (experts_same Hinc' Hst Hk Hhl Hm' Hlt' Ha' Hne).
      exact: (from_sigmas_ok (RLA k K) s _ None Hd' Hsm Hfe' I). }
    have Hz : zip times fs = (zip (take L times) (take L fs) ++ zip (drop L times) (drop L fs))%list.
    { transitivity (zip (take L times) (take L fs) ++ zip (drop L times) (drop L fs)) => //. by rewrite -zip_cat // !cat_take_drop. }
    rewrite Hz in Hc.
    have Hf := experts_forecast K label Hinc' Hst Hk Hhl Hm' Hlt' Ha' Hne. rewrite -/s -/p0 in Hf.
    have Hlen : List.length (forecast_times (RLA k K) s) = (L - p0)%N by rewrite Hf; change (size (drop p0 (take L times)) = (L - p0)%N); rewrite size_drop HsL.
    have H10 : (le 1 10 /\ le 10 (List.length (forecast_times (RLA k K) s) - 1))%coq_nat by rewrite Hlen; lia.
    have Hkn : returns_known (RLA k K) s' (zip times fs) by move=> t; apply: (experts_known Hinc Hsz Hk Hhl Hm Hlt Ha Hne).
    have Hkn' : returns_known (RLA k K) s (zip (take L times) (take L fs)) by move=> t; apply: (experts_known Hinc' Hst Hk Hhl Hm' Hlt' Ha' Hne).
    rewrite Hz in Hkn.
    have [its [more [Hs1 [Eits Hitl]]]] := CombProps.no_look_ahead (RLA k K) s (zip (take L times) (take L fs)) None s' (zip (drop L times) (drop L fs)) None
       (built (RLA k K) s (zip (take L times) (take L fs)) None) c slv 10 (map Some rs) Hd' Hd (experts_increasing K label Hinc Hsz Hk Hhl Hm Hlt Ha Hne) Hext I Hc' Hc
       Hkn' Hkn H10 Hs.
    rewrite /finish -/s Hc' [bind (Ok _) _]/= Hs1 /=.
    have Hits : its = map Some (take (L - (p0 + 10)) rs).
    { rewrite map_take Eits take_cat. rewrite Hlen in Hitl. change (size its = L - p0 - 10)%N in Hitl. rewrite -subnDA in Hitl.
      by rewrite Hitl ltnn subnn take0 cats0. }
    rewrite Hits. rewrite (mapM_ok _ (fun o => if o is Some r then (r_time (RLA k K) r, (r_cov (RLA k K) r : 'M[R]_k)) else (Z0, 0))); last first.
    { move=> o /In_map [r [<- _]]. by []. }
    cbn [bind]. rewrite mapE -map_comp E -map_take. rewrite (@eq_map _ _ _ (fun r => (r_time (RLA k K) r, (r_cov (RLA k K) r : 'M[R]_k)))) //.
    congr Ok. apply: dict_of_nodup. rewrite mapE map_take -E map_take Ht -skipnE -firstnE. apply: CombSolve.NoDup_firstn. apply: CombSolve.NoDup_skipn.
    exact: increasing_NoDup.
  Qed.
End Cfc2.
