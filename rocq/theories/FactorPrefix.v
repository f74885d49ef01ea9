(** * construct_cmiewma_factor_model: shorter data. *)
From Coq Require Import Classical_Prop Reals Lra ZArith String List Lia.
Set Warnings "-notation-overridden,-ambiguous-paths".
From mathcomp Require Import all_ssreflect all_algebra.
From Verif Require Import RStruct MatR Num Py ListFacts XRFacts Ewma EwmaPrefix Spec SpecEwma EwmaFirst Combination SpecComb CombFacts CombBuild CombSolve CombRun CombProps CombItems RealLA SpecCombR CombReal CombExact FromEwmas SpecFrom FromEwmasProps ExpUtils CombPerm Trader TraderMain BacktestProps RetComb SpecRet RetEwm RetPred FactorModel SpecFactor FactorCov FactorCov2 FactorMain FactorLoop FactorItems FactorItem.
Set Implicit Arguments.
Unset Strict Implicit.
Unset Printing Implicit Defensive.
Import GRing.Theory.
Local Open Scope ring_scope.
Delimit Scope R_scope with re.
Delimit Scope Z_scope with z.

Section Prefix.
  Context (n k K : nat) (label : option xr * option xr -> string) (pca : seq 'cV[R]_n -> res 'M[R]_(k, n)) (slv : solver (RLA k K)).
  Context (pairs : seq (option xr * option xr)) (uf memory : nat).
  Hypothesis Hk : (0 < k)%N.
  Hypothesis Hhl : positive_halflives pairs.
  Hypothesis Hlab : List.NoDup (map label pairs).
  Hypothesis HK : K = size pairs.
  Hypothesis Huf : (0 < uf)%N.
  Hypothesis Hm10 : (10 <= memory)%N.
  Hypothesis H3 : (3 * k + 8 <= memory)%N.
  Notation run times rows := (construct_cmiewma_factor_model label pca slv times rows pairs uf memory).
  Notation block times rows t := (fm_block label pca slv times rows pairs uf memory t).

  Section Data.
    Context (times : seq Z) (rows : seq 'cV[R]_n).
    Hypothesis Hinc : increasing times.
    Hypothesis Hsz : size rows = size times.
    Notation T := (size times).
    Notation N := ((T - memory + uf.-1) %/ uf)%N.
    Notation st j := (memory + j * uf)%N.

    Lemma block_prefix L t items : (memory <= t)%N -> (t < L)%N -> (L <= T)%N ->
      (forall E, pca (train_rows rows memory t) = Ok E -> early_move E rows t) ->
      block times rows t = Ok items -> block (take L times) (take L rows) t = Ok (take (L - t) items).
    Proof.
      move=> Hmt HtL HLT Hea Hb. have HtT : (t < T)%N by lia.
      have [E [covs [m [HE [Hcov [Hm]]]]]] := block_ok Hk Hhl Hlab HK Huf Hm10 Hinc Hsz Hmt HtT Hb.
      have Hp : (3 * k + 8 <= t)%N by lia.
      rewrite /= (early_first Hk HK Huf Hm10 Hsz Hp HtT (Hea _ HE) Hm Hmt).
      have [He1 He2] := block_bounds Hk HK Huf Hm10 Hsz Hmt HtT. have He3 := block_end_next Hk HK Huf Hm10 Hsz Hmt HtT.
      set e := block_end uf T t in Hcov Hm He1 He2 He3 *. set b := (_ + _)%N.
      have -> : b = t by rewrite /b /minn; case: (ltnP 10 (e - (t - 10))); lia.
      move=> [_ [_ [_ [Hsc [Ht ->]]]]].
      have HsL : size (take L times) = L by rewrite size_takel.
      have Hsr : size (take L rows) = size (take L times) by rewrite !size_take Hsz.
      have HtL' : (t < size (take L times))%N by rewrite HsL.
      have [Hf1 Hf2] := block_bounds Hk HK Huf Hm10 Hsr Hmt HtL'. have Hf3 := block_end_next Hk HK Huf Hm10 Hsr Hmt HtL'.
      rewrite block_form //; try lia; last exact: increasing_take.
      set e' := block_end uf (size (take L times)) t in Hf1 Hf2 Hf3 *. rewrite HsL in Hf2 Hf3.
      have Hee : (e' <= e)%N.
      { have H : (e'.+1 <= e.+1)%N; last by []. rewrite Hf3 He3. rewrite leq_min geq_minl /=. apply: leq_trans (geq_minr _ _) HLT. }
      have -> : train_rows (take L rows) memory t = train_rows rows memory t.
      { rewrite /train_rows !take_drop take_take //. lia. }
      rewrite HE. cbn [bind]. rewrite !take_take; try lia. rewrite nth_take; last lia.
      have Hst : size (facs E (take e.+1 rows)) = size (take e.+1 times) by rewrite size_map !size_take Hsz.
      have HsE : size (take e.+1 times) = e.+1 by rewrite size_takel.
      have Ha : (t - 10 < size (take e.+1 times))%N by rewrite HsE; lia.
      have Hcov' := Hcov. rewrite -(@nth_take e.+1 _ Z0 (t - 10)) in Hcov'; last lia.
      have HL' : (e'.+1 <= size (take e.+1 times))%N by rewrite HsE.
      have Hfk := early_first Hk HK Huf Hm10 Hsz Hp HtT (Hea _ HE) Hm Hmt.
      have Hlt : (first_kept k m (t - 10) + 10 < e'.+1)%N by rewrite Hfk; lia.
      have := cfc_prefix Hk Hhl Hlab HK (increasing_take e.+1 Hinc) Hst HL' Hcov' Hm Hlt.
      rewrite facs_take !take_take // nth_take; last lia. rewrite Hfk => ->. cbn [bind].
      have -> : (t - 10 + 10 = t)%N by lia.
      have Hbm := @block_mapM n k E (take L times) (take L rows) e' (take (e'.+1 - t) covs) t (increasing_take L Hinc) Hsr.
      rewrite HsL !take_take // in Hbm. rewrite Hbm //; last first.
      { exists (e'.+1 - t)%N. rewrite map_take Ht !take_drop subnK ?take_take //; lia. }
      rewrite -(block_value_take _ _ _ _ _ (L - t)).
      have -> : take (e'.+1 - t) covs = take (L - t) covs.
      { move: Hf3. rewrite /minn. case: (ltnP (t + uf) L) => H Hf; last by rewrite Hf.
        rewrite !take_oversize // Hsc He3 /minn; case: (ltnP (t + uf) T); lia. }
      congr Ok. rewrite /block_value. apply/eq_in_map => j. rewrite mem_iota add0n /= => Hj.
      have Hj2 : (j < L - t)%N by move: Hj; rewrite size_take; case: ifP; lia.
      rewrite nth_take; last lia. congr mkItem. apply/colP => i. rewrite !mxE. apply: idio_take. lia.
    Qed.

    Theorem prefix L : all_early pca rows uf memory T -> (L <= T)%N -> (L <= memory + size (run times rows).1)%N ->
      run (take L times) (take L rows) = (take (L - memory) (run times rows).1, None).
    Proof.
      move=> Hea HLT. have [bs [ex [-> [Hs [Hb Hx]]]]] /= := run_split label pca slv Hk HK Huf Hm10 Hsz. move=> HLs.
      have Hsi j (Hj : (j < size bs)%N) := (early_blocks Hk Hhl Hlab HK Huf Hm10 Hinc Hsz H3 Hea Hs Hb Hj).2.
      have Hfl : (size (flatten bs) <= size bs * uf)%N.
      { rewrite size_flatten /shape. have : forall b, List.In b bs -> (size b <= uf)%N.
        { move=> b /(In_nthP [::]) [j Hj ->]. rewrite Hsi //. exact: geq_minl. }
        elim: (bs) => //= b l IH H. rewrite mulSn. have H1 := H b (or_introl erefl).
        have H2 : (sumn (map size l) <= size l * uf)%N by apply: IH => b' Hb'; apply: H; right.
        move: H1 H2. move: (sumn _) (size l * uf)%N (size b). lia. }
      rewrite /construct_cmiewma_factor_model. have -> : (uf == 0%N) = false by case: uf Huf.
      have HsL : size (take L times) = L by rewrite size_takel. rewrite HsL.
      set N' := ((L - memory + uf.-1) %/ uf)%N.
      have HN' : (N' <= size bs)%N.
      { rewrite -ltnS /N' ltn_divLR // mulSn. lia. }
      set bs' := [seq take (L - memory - j * uf) (nth [::] bs j) | j <- iota 0 N'].
      have -> : fm_loop label pca slv (take L times) (take L rows) pairs uf memory (step_range memory L uf) = (flatten bs', None).
      { apply: loop_of; first by rewrite !size_map !size_iota.
        rewrite size_map size_iota => j Hj. rewrite -/N' in Hj. have HjL : (st j < L)%N.
        { have H : (j.+1 * uf <= L - memory + uf.-1)%N by rewrite -leq_divRL. rewrite mulSn in H. lia. }
        rewrite (nth_map 0%N) ?size_iota // nth_iota // add0n.
        rewrite (nth_map 0%N) ?size_iota // nth_iota // add0n -subnDA. have Hjb : (j < size bs)%N by lia.
        have [Hj1 Hj2] := Hb j Hjb. apply: block_prefix => //; first by apply: leq_addr.
        move=> E HE. exact: (Hea j). }
      congr pair. rewrite -(@flatten_prefix _ uf bs (L - memory)).
      - rewrite -(subnKC HN') iotaD map_cat flatten_cat -/bs'. rewrite (_ : flatten (map _ (iota (0 + N') _)) = [::]) ?cats0 //.
        rewrite (_ : map _ _ = map (fun=> [::]) (iota (0 + N') (size bs - N'))); first by elim: (iota _ _) => //= j l.
        apply/eq_in_map => j.
        rewrite mem_iota add0n => /andP [Hj _]. have Hc := ltn_ceil (L - memory + uf.-1) Huf. rewrite -/N' in Hc.
        have H : (N' * uf <= j * uf)%N by rewrite leq_mul2r Hj orbT.
        have -> : (L - memory - j * uf = 0)%N by rewrite mulSn in Hc; lia. by rewrite take0.
      - move=> j Hj. rewrite Hsi //. exact: geq_minl.
      - move=> j Hj. rewrite Hsi; last lia. apply/minn_idPl. have [H1 _] := Hb j.+1 Hj. rewrite mulSn in H1. lia.
    Qed.
  End Data.
End Prefix.
