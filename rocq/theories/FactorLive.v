(** * construct_cmiewma_factor_model: when the run completes. *)
From Coq Require Import Classical_Prop Reals Lra ZArith String List Lia.
Set Warnings "-notation-overridden,-ambiguous-paths".
From mathcomp Require Import all_ssreflect all_algebra.
From Verif Require Import RStruct MatR Num Py ListFacts XRFacts Ewma EwmaPrefix Spec SpecEwma EwmaFirst Combination SpecComb CombFacts CombBuild CombSolve CombRun CombProps CombItems RealLA SpecCombR CombReal CombObj CombExact CombOk FromEwmas SpecFrom FromEwmasProps ExpUtils CombPerm Trader TraderMain BacktestProps RetComb SpecRet RetEwm RetPred FactorModel SpecFactor FactorCov FactorCov2 FactorMain FactorLoop FactorItems FactorItem.
Set Implicit Arguments.
Unset Strict Implicit.
Unset Printing Implicit Defensive.
Import GRing.Theory.
Local Open Scope ring_scope.
Delimit Scope R_scope with re.
Delimit Scope Z_scope with z.

Lemma healthy_K n (s : covs n) K (HK : K = List.length s) returns (slv : solver (RLA n K)) :
  dicts s -> same_times (RLA n K) s -> all_spd s -> increasing (forecast_times (RLA n K) s) -> returns_known (RLA n K) s returns ->
  (2 <= List.length (forecast_times (RLA n K) s))%coq_nat ->
  (forall i, List.In i (positions (scored (RLA n K) s) (eff (List.length (forecast_times (RLA n K) s)) (Some 10%N)) None) ->
     spd (pairs_quad (RLA n K) s None returns (pairs_at (RLA n K) s (eff (List.length (forecast_times (RLA n K) s)) (Some 10%N)) i) : 'M[R]_K)) ->
  returns_optimal slv -> (forall h p, (exists w, optimal p w) -> slv h p <> None) ->
  exists c items, from_sigmas (RLA n K) s returns None = Ok c /\ solve (RLA n K) slv c (Some 10%N) None = (items, None) /\
    List.Forall (fun x => x <> None) items.
Proof.
  subst K => H1 H2 H3 H4 H5 H6 H7 H8 H9.
  have [|i Hi|c [items [Hc [Hs [_ Hf]]]]] := @healthy_best n s None returns H1 H2 H3 I H4 H5 H6 (Some 10%N) None _ _ slv H8 H9.
  - by [].
  - rewrite quad_pairs_at. exact: H7.
  - by exists c, items.
Qed.
Lemma spd_quad_K n (s : covs n) K (HK : K = List.length s) returns pairs :
  (forall v : nat -> R, (exists2 j, (j < K)%N & v j <> 0) -> exists2 st, List.In st pairs &
     \sum_(j < K) v j *: ((factor (RLA n K) s (fst (expert s j)) st.1 : 'M[R]_n)^T *m (SpecComb.return_at (RLA n K) returns st.2 : 'cV[R]_n)) <> 0) ->
  spd (pairs_quad (RLA n K) s None returns pairs : 'M[R]_K).
Proof.
  subst K => H. split; first exact: quad_sym.
  move=> x Hx. pose v j : R := if @insub _ _ [subType of 'I_(List.length s)] j is Some i then x i ord0 else 0.
  have Hv : exists2 j, (j < List.length s)%N & v j <> 0.
  { apply: NNPP => Hn. move/eqP: Hx. apply. apply/colP => i. rewrite [in RHS]mxE. apply: NNPP => Hi. apply: Hn.
    exists (nat_of_ord i) => //. by rewrite /v valK. }
  have [st Hst Hne] := H v Hv.
  have Ex : wvec (List.length s) [seq v j | j <- iota 0 (List.length s)] = x.
  { apply/colP => i. rewrite mxE (nth_map 0%N) ?size_iota // nth_iota // add0n /v valK //. }
  have Env (j : 'I_(List.length s)) : nth 0 [seq v j | j <- iota 0 (List.length s)] j = v j by rewrite (nth_map 0%N) ?size_iota // nth_iota.
  rewrite -Ex quad_gram.
  have Et st' : nsq ((avgL s st'.1 [seq v j | j <- iota 0 (List.length s)])^T *m ret s returns st'.2 - avgN s None st'.1 [seq v j | j <- iota 0 (List.length s)])
    = nsq (\sum_(j < List.length s) v j *: ((factor (RLA n (List.length s)) s (fst (expert s j)) st'.1 : 'M[R]_n)^T *m (SpecComb.return_at (RLA n (List.length s)) returns st'.2 : 'cV[R]_n))).
  { congr nsq. rewrite /avgN /avg_nu big1 => [|j _]; last by rewrite /mean_of mulmx0 scaler0. rewrite subr0 /avgL /avg_factor linear_sum /= mulmx_suml.
    apply: eq_bigr => j _. by rewrite linearZ /= -scalemxAl Env. }
  rewrite (eq_bigr _ (fun st' _ => Et st')). elim: pairs Hst {H} => //= a l IH. case=> [->|Hin]; rewrite big_cons.
  - apply: Rplus_lt_le_0_compat; first by apply: nsq_gt0; apply/eqP.
    apply: (big_ind (fun x : R => (0 <= x)%re)) => [|y z Hy Hz|y _]; [exact: Rle_refl|exact: Rplus_le_le_0_compat|exact: nsq_ge0].
  - apply: Rplus_le_lt_0_compat; [exact: nsq_ge0|exact: IH].
Qed.

Lemma prev_nth (l : seq Z) i : List.NoDup l -> (i.+1 < size l)%N -> prev l (nth Z0 l i.+1) = nth Z0 l i.
Proof.
  elim: l i => [//|a l IH] i Hnd Hi. case: l IH Hnd Hi => [//|b l] IH Hnd Hi. rewrite [nth _ _ i.+1]/= [prev _ _]/=.
  case: i Hi => [|i] Hi; first by rewrite /= Z.eqb_refl.
  case: (Z.eqb_spec b (nth Z0 (b :: l) i.+1)) => [E|_].
  - inversion Hnd as [|? ? _ H]; subst. inversion H as [|? ? Hn _]; subst. case: Hn. rewrite {1}E /=. apply/(In_nthP Z0). exists i => //.
  - apply: IH => //. by inversion Hnd.
Qed.

Section Live.
  Context (n k K : nat) (label : option xr * option xr -> string) (pca : seq 'cV[R]_n -> res 'M[R]_(k, n)) (slv : solver (RLA k K)).
  Context (pairs : seq (option xr * option xr)) (uf memory : nat).
  Hypothesis Hk : (0 < k)%N.
  Hypothesis Hhl : positive_halflives pairs.
  Hypothesis Hlab : List.NoDup (map label pairs).
  Hypothesis HK : K = size pairs.
  Hypothesis Hne : pairs <> [::].
  Hypothesis Hopt : returns_optimal slv.
  Hypothesis Htot : forall h p, (exists w, optimal p w) -> slv h p <> None.

  Lemma cfc_live times (fs : seq 'cV[R]_k) a m : increasing times -> size fs = size times -> first_move (fx fs) k m -> (warm k m <= a)%N ->
    (a + 10 < size times)%N ->
    (forall q j S, (a <= q < size times)%N -> (j < K)%N ->
       cov_of (experts label times fs pairs (nth Z0 times a)) j (nth Z0 times q) = Some S -> spd S) ->
    (forall p, (a + 10 <= p < size times)%N -> forall v : nat -> R, (exists2 j, (j < K)%N & v j <> 0) ->
       exists2 s, (p <= s + 9)%N && (s <= p)%N & forall F, factors_at (experts label times fs pairs (nth Z0 times a)) (nth Z0 times s.-1) F ->
       \sum_(j < K) v j *: ((F j)^T *m nth 0 fs s) <> 0) ->
    exists covs, construct_factor_covariance label slv times fs pairs (nth Z0 times a) = Ok covs.
  Proof.
    move=> Hinc Hsz Hm Hw HaT Hspd Hinf. have Ha : (a < size times)%N by lia.
    have Hlt : (maxn k.-1 m < size times)%N by have H : (maxn k.-1 m <= warm k m)%N := leq_addr _ _; lia.
    have Hfk : first_kept k m a = a by apply/maxn_idPl.
    rewrite cfc_form //; last by move=> p Hp; exact: (outs_times Hinc Hsz Hk Hhl Hm Hlt Hp).1.
    set s := experts label times fs pairs (nth Z0 times a) in Hspd Hinf.
    have HKs : K = List.length s by rewrite HK -(@experts_size k label times fs pairs a).
    have Hd : dicts s := experts_dicts Hinc Hsz Hk Hhl Hlab Hm Hlt Ha.
    have Hsame : same_times (RLA k K) s by move=> ks t; apply: (experts_same Hinc Hsz Hk Hhl Hm Hlt Ha Hne).
    have Hf := experts_forecast K label Hinc Hsz Hk Hhl Hm Hlt Ha Hne. rewrite -/s Hfk in Hf.
    have Hlen : List.length (forecast_times (RLA k K) s) = (size times - a)%N by rewrite Hf -size_drop.
    have Hall : all_spd s.
    { move=> ks [t S] Hks HtS. have Et := experts_times Hinc Hsz Hk Hhl Hm Hlt Ha Hks. rewrite Hfk in Et.
      case: (proj1 (In_nthP (EmptyString, nil) s ks) Hks) => j. rewrite -[size s]/(List.length s) -HKs => Hj Ej.
      have : List.In t (map fst ks.2) by apply/In_map; exists (t, S).
      rewrite Et => /(In_nthP Z0) [q]. rewrite size_drop => Hq Eq. rewrite nth_drop in Eq.
      apply: (Hspd (a + q)%N j S) => //; first lia. rewrite /cov_of /expert nthE -Ej -Eq. apply: dict_get_in => //.
      move: (proj2 Hd) => /List.Forall_forall. exact. }
    have Hki := experts_known Hinc Hsz Hk Hhl Hm Hlt Ha Hne.
    have Hin := experts_increasing K label Hinc Hsz Hk Hhl Hm Hlt Ha Hne. rewrite -/s in Hin.
    have Hnd : List.NoDup (drop a times) by rewrite -skipnE; apply: CombSolve.NoDup_skipn; exact: increasing_NoDup.
    have Heff : eff (size times - a) (Some 10%N) = 10%N by rewrite /eff; lia.
    have [||c [items [Hc [Hs Hsome]]]] := @healthy_K k s K HKs (zip times fs) slv Hd Hsame Hall Hin (Hki K label) _ _ Hopt Htot.
    - rewrite Hlen. lia.
    - rewrite Hlen Heff => i /List.in_seq Hi. apply: spd_quad_K => // v Hv.
      have Hsl : List.length (scored (RLA k K) s) = (size times - a - 1)%N.
      { rewrite /scored Hf. rewrite (drop_nth Z0) //=. change (size (drop a.+1 times) = (size times - a - 1)%N). rewrite size_drop. lia. }
      rewrite Hsl in Hi. set p := (a + i.+1)%N. have Hp : (a + 10 <= p < size times)%N by rewrite /p; lia.
      have [r /andP [Hr1 Hr2] Hr] := Hinf p Hp v Hv.
      have Hra : (a < r)%N by rewrite /p in Hr1; lia.
      exists (nth Z0 times r.-1, nth Z0 times r).
      + rewrite /pairs_at /window_at Hf. apply/In_map. exists (nth Z0 times r). split.
        * have E1 : nth Z0 times r = nth Z0 (drop a times) (r - a.+1).+1 by rewrite nth_drop; congr nth; lia.
          have E2 : nth Z0 times r.-1 = nth Z0 (drop a times) (r - a.+1) by rewrite nth_drop; congr nth; lia.
          rewrite E1 E2 prev_nth // size_drop. rewrite /p in Hr2. lia.
        * rewrite /sub /scored Hf firstnE skipnE. rewrite (drop_nth Z0 Ha) [List.tl _]/= drop_drop. apply/(In_nthP Z0). exists (r - (i + 1 - 10 + a.+1))%N.
          { rewrite size_take size_drop. rewrite /p in Hr1 Hr2 Hp. case: ifP; lia. }
          rewrite nth_take; last by rewrite /p in Hr1 Hr2 Hp; lia. rewrite nth_drop. congr nth. rewrite /p in Hr1 Hr2 Hp; lia.
      + have Hret : SpecComb.return_at (RLA k K) (zip times fs) (nth Z0 times r) = nth 0 fs r.
        { rewrite /SpecComb.return_at (dict_get_in (zip times fs) (nth Z0 times r) (nth 0 fs r)) //.
          - rewrite mapE -/unzip1 unzip1_zip ?Hsz //. exact: increasing_NoDup.
          - apply/(In_nthP (Z0, 0)). exists r; first by rewrite size_zip Hsz minnn /p in Hr2 Hp *; lia. by rewrite nth_zip. }
        rewrite /= Hret. apply: (Hr (fun j => factor (RLA k K) s (fst (expert s j)) (nth Z0 times r.-1))).
        have Hin1 : List.In (nth Z0 times r.-1) (forecast_times (RLA k K) s).
        { rewrite Hf. apply/(In_nthP Z0). exists (r.-1 - a)%N; first by rewrite size_drop; rewrite /p in Hr2 Hp; lia. rewrite nth_drop. congr nth. lia. }
        have Hys := experts_sym Hinc Hsz Hk Hhl Hm Hlt. have Hfe := @spd_factors k K _ Hall.
        move: (K) HKs Hsame Hfe Hin1. move=> K0 HK0. subst K0. move=> G1 G2 G3. exact: (fac_spec Hd G1 G2 (spd_sym Hall) G3).
    - rewrite /finish -/s Hc. cbn [bind]. rewrite Hs /=.
      have [l ->] : exists l, mapM (@result_item k K) items = Ok l.
      { elim: items Hsome {Hs} => [|[r|] l IH] H; [by exists [::]| |by inversion H].
        case: IH => [|l' E]; first by inversion H. exists ((r_time _ r, r_cov _ r) :: l'). by rewrite /= E. }
      by eexists.
  Qed.

  Hypothesis Huf : (0 < uf)%N.
  Hypothesis Hm10 : (10 <= memory)%N.
  Hypothesis H3 : (3 * k + 8 <= memory)%N.
  Notation run times rows := (construct_cmiewma_factor_model label pca slv times rows pairs uf memory).
  Notation block times rows t := (fm_block label pca slv times rows pairs uf memory t).

  Section Data.
    Context (times : seq Z) (rows : seq 'cV[R]_n).
    Hypothesis Hinc : increasing times.
    Hypothesis Hsz : size rows = size times.
    Notation T := (size times).

    Lemma block_live t : (memory <= t)%N -> (t < T)%N -> healthy_block pca times rows pairs uf memory t -> exists items, block times rows t = Ok items.
    Proof.
      move=> Hmt HtT [E [HE [Hea [Hspd Hinf]]]].
      have [He1 He2] := block_bounds Hk HK Huf Hm10 Hsz Hmt HtT.
      rewrite block_form //; try lia. set e := block_end uf T t in Hspd Hinf He1 He2 *. rewrite HE. cbn [bind].
      set fs := facs E (take e.+1 rows). set ts := take e.+1 times.
      have HsL : size ts = e.+1 by rewrite size_takel.
      have Hst : size fs = size ts by rewrite size_map !size_take Hsz.
      have Hi := increasing_take e.+1 Hinc : increasing ts.
      have [s0 Hs0 Hmv] := Hea.
      have Hs0e : (s0 < size fs)%N by rewrite Hst HsL; lia.
      have [m Hm0 Hm] : exists2 m, (m <= s0)%N & first_move (fx fs) k m.
      { apply: (first_moveP Hst Hk Hs0e). rewrite /fs /facs (nth_map 0) ?size_takel ?Hsz //; try lia. rewrite nth_take //; lia. }
      have Hfk := early_first Hk HK Huf Hm10 Hsz (leq_trans H3 Hmt) HtT Hea Hm Hmt.
      have Hw : (warm k m <= t - 10)%N by rewrite -[X in (_ <= X)%N]Hfk leq_maxr.
      have Hnt p : (p <= e)%N -> nth Z0 ts p = nth Z0 times p by move=> H; rewrite nth_take.
      have Est : nth Z0 times (t - 10) = nth Z0 ts (t - 10) by rewrite Hnt //; lia.
      have Hiss q j S : (t - 10 <= q <= e)%N -> (j < size pairs)%N ->
        cov_of (experts label ts fs pairs (nth Z0 ts (t - 10))) j (nth Z0 times q) = Some S -> expert_cov E times rows q (nth (None, None) pairs j) (j == 0%N) S.
      { move=> /andP [Hq1 Hq2] Hj Hc. have Hwq := leq_trans Hw Hq1. exact: (experts_issued Hk Hhl HK Huf Hm10 Hinc Hsz He2 Hq2 Hm Hwq Hj Hc). }
      have [|||covs Hcov] := @cfc_live ts fs (t - 10) m Hi Hst Hm Hw.
      - rewrite HsL; lia.
      - move=> q j S Hq Hj. rewrite HsL in Hq. rewrite (Hnt q); last lia. rewrite HK in Hj.
        move=> Hc. have Hq2 : (t - 10 <= q <= e)%N by []. exact: (Hspd q j S Hq2 Hj (Hiss _ _ _ Hq2 Hj Hc)).
      - move=> p Hp v Hv. rewrite HsL in Hp. have Hp' : (t <= p <= e)%N by lia.
        rewrite HK in Hv. have [s Hs HF] := Hinf p Hp' v Hv. exists s => // F HFs. rewrite HK.
        have Hse : (s <= e)%N by lia.
        have -> : nth 0 fs s = factor_return E rows s by rewrite /fs /facs (nth_map 0) ?size_takel ?Hsz //; rewrite nth_take.
        apply: HF => j Hj. have Hes : List.length (experts label ts fs pairs (nth Z0 ts (t - 10))) = size pairs by exact: experts_size.
        have Hj2 : (j < List.length (experts label ts fs pairs (nth Z0 ts (t - 10))))%N by rewrite Hes.
        have [S [C1 C2]] := HFs j Hj2. exists S. split=> //. rewrite (Hnt s.-1) in C1; last lia.
        apply: Hiss C1 => //. lia.
      - rewrite Est Hcov. cbn [bind].
        have Ha : (t - 10 < size ts)%N by rewrite HsL; lia.
        have [m' [c [rs [_ [_ [_ [_ [_ [_ [_ Ht]]]]]]]]]] := cfc_ok Hk Hhl Hlab Hi Hst Ha Hcov.
        move: Ht. set b := (_ + _)%N => Ht. exists (block_value E times rows covs b). apply: block_mapM => //.
        exists (size (drop b ts)). by rewrite take_size.
    Qed.

    Theorem run_live : (forall i, let t := (memory + i * uf)%N in (t < T)%N -> healthy_block pca times rows pairs uf memory t) ->
      (run times rows).2 = None /\ map (@f_time n k) (run times rows).1 = drop memory times.
    Proof.
      move=> H. have Hea : all_early pca rows uf memory T.
      { move=> i E t Ht HE. have [E' [HE' [He _]]] := H i Ht. rewrite HE in HE'. by case: HE' => ->. }
      have [Ht _] := tiling slv Hk Hhl Hlab HK Huf Hm10 Hinc Hsz H3 Hea.
      have Hn : (run times rows).2 = None.
      { have [bs [ex [-> [Hs [Hb Hx]]]]] /= := run_split label pca slv Hk HK Huf Hm10 Hsz. case: ex Hx => // e [Hlt Hr].
        have Hst := st_lt Hk HK Huf Hm10 Hsz Hlt. have [items Ei] := block_live (leq_addr _ _) Hst (H _ Hst). by rewrite Ei in Hr. }
      split=> //. exact: Ht.
    Qed.
  End Data.
End Live.
