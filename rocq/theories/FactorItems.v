(** * construct_cmiewma_factor_model: order of the items, their contents, shorter data. *)
From Coq Require Import Classical_Prop Reals Lra ZArith String List Lia.
Set Warnings "-notation-overridden,-ambiguous-paths".
From mathcomp Require Import all_ssreflect all_algebra.
From Verif Require Import RStruct MatR Num Py ListFacts XRFacts Ewma EwmaPrefix Spec SpecEwma EwmaFirst Combination SpecComb CombFacts CombBuild CombSolve CombRun CombProps CombItems RealLA SpecCombR CombReal CombExact FromEwmas SpecFrom FromEwmasProps ExpUtils CombPerm Trader TraderMain BacktestProps RetComb SpecRet RetEwm RetPred FactorModel SpecFactor FactorCov FactorCov2 FactorMain FactorLoop.
Set Implicit Arguments.
Unset Strict Implicit.
Unset Printing Implicit Defensive.
Import GRing.Theory.
Local Open Scope ring_scope.
Delimit Scope R_scope with re.
Delimit Scope Z_scope with z.

Lemma In_flatten A (bs : seq (seq A)) x : List.In x (flatten bs) -> exists2 j, (j < size bs)%N & List.In x (nth [::] bs j).
Proof.
  elim: bs => //= b bs IH H0. case: (List.in_app_or b (flatten bs) x H0) => H; first by exists 0%N. have [j Hj Hx] := IH H. by exists j.+1.
Qed.
Lemma iota_drop_take T (l : seq T) d b e : (e < size l)%N -> (b <= e)%N -> drop b (take e.+1 l) = [seq nth d l p | p <- iota b (e.+1 - b)].
Proof.
  move=> He Hb. apply: (@eq_from_nth _ d) => [|j]; first by rewrite size_drop size_map size_iota size_takel.
  rewrite size_drop size_takel // => Hj. rewrite (nth_map 0%N) ?size_iota // nth_iota // nth_drop nth_take //. lia.
Qed.

Section Items.
  Context (n k K : nat) (label : option xr * option xr -> string) (pca : seq 'cV[R]_n -> res 'M[R]_(k, n)) (slv : solver (RLA k K)).
  Context (pairs : seq (option xr * option xr)) (uf memory : nat).
  Hypothesis Hk : (0 < k)%N.
  Hypothesis Hhl : positive_halflives pairs.
  Hypothesis Hlab : List.NoDup (map label pairs).
  Hypothesis HK : K = size pairs.
  Hypothesis Huf : (0 < uf)%N.
  Hypothesis Hm10 : (10 <= memory)%N.
  Notation run times rows := (construct_cmiewma_factor_model label pca slv times rows pairs uf memory).
  Notation block times rows t := (fm_block label pca slv times rows pairs uf memory t).

  Section Data.
    Context (times : seq Z) (rows : seq 'cV[R]_n).
    Hypothesis Hinc : increasing times.
    Hypothesis Hsz : size rows = size times.
    Notation T := (size times).
    Notation N := ((T - memory + uf.-1) %/ uf)%N.
    Notation st j := (memory + j * uf)%N.

    Lemma block_positions t items : (memory <= t)%N -> (t < T)%N -> block times rows t = Ok items ->
      exists2 b, (t <= b <= block_end uf T t)%N & map (@f_time n k) items = [seq nth Z0 times p | p <- iota b ((block_end uf T t).+1 - b)].
    Proof.
      move=> H1 H2 Hb. have [E [covs [m [HE [Hcov [Hm]]]]]] := block_ok Hk Hhl Hlab HK Huf Hm10 Hinc Hsz H1 H2 Hb.
      have [He1 He2] := block_bounds Hk HK Huf Hm10 Hsz H1 H2. cbv zeta. set b := (_ + _)%N. move=> [_ [Hb1 [Hb2 [Hs [Ht ->]]]]]. exists b; first by rewrite Hb1 Hb2.
      rewrite block_value_times; last by rewrite Hs; lia. rewrite -iota_drop_take // Hs.
      have -> : drop b (take (block_end uf T t).+1 times) = take ((block_end uf T t).+1 - b) (drop b times).
      { rewrite take_drop subnK //. lia. }
      by [].
    Qed.

    Lemma order_blocks bs c : (c <= size bs)%N -> (forall j, (j < size bs)%N -> (st j < T)%N /\ block times rows (st j) = Ok (nth [::] bs j)) ->
      exists ps, map (@f_time n k) (flatten (take c bs)) = [seq nth Z0 times p | p <- ps] /\ sorted ltn ps /\
        (forall p, p \in ps -> (memory <= p < T)%N /\ (p < st c)%N) /\ (forall j, (j < c)%N -> block_end uf T (st j) \in ps).
    Proof.
      move=> Hc Hb. elim: c Hc => [_|c IH Hc]; first by rewrite take0; exists [::].
      have [ps [E [Hs [Hin Hend]]]] := IH (ltnW Hc). have [H1 H2] := Hb c Hc.
      have Hmt : (memory <= st c)%N by apply: leq_addr.
      have [b /andP [Hb1 Hb2] Et] := block_positions Hmt H1 H2. have [He1 He2] := block_bounds Hk HK Huf Hm10 Hsz Hmt H1.
      have He3 := block_end_next Hk HK Huf Hm10 Hsz Hmt H1.
      have He4 : (block_end uf T (st c) < st c.+1)%N by have := geq_minl (st c + uf) T; rewrite -He3 mulSn; lia.
      exists (ps ++ iota b ((block_end uf T (st c)).+1 - b)). split.
      { rewrite (take_nth [::]) // flatten_rcons map_cat E Et map_cat. by []. }
      split.
      { rewrite (sorted_pairwise ltn_trans) pairwise_cat -!(sorted_pairwise ltn_trans) Hs iota_ltn_sorted /= andbT.
        apply/allrelP => p q Hp. rewrite mem_iota => Hq. have [_ H] := Hin p Hp. rewrite /ltn /=. lia. }
      split.
      - move=> p. rewrite mem_cat => /orP [Hp|]; first by have [Ha Hb'] := Hin p Hp; split=> //; rewrite mulSn; lia.
        rewrite mem_iota => Hp. split; lia.
      - move=> j. rewrite ltnS leq_eqVlt mem_cat => /orP [/eqP ->|Hj]; last by rewrite Hend.
        apply/orP. right. rewrite mem_iota. lia.
    Qed.
    Theorem order : let g := run times rows in exists ps,
      map (@f_time n k) g.1 = [seq nth Z0 times p | p <- ps] /\ sorted ltn ps /\ (forall p, p \in ps -> (memory <= p < T)%N) /\
      (g.2 = None -> forall p, (memory <= p < T)%N -> p.+1 = T \/ (uf %| p.+1 - memory)%N -> p \in ps).
    Proof.
      have [bs [ex [-> [Hs [Hb Hx]]]]] /= := run_split label pca slv Hk HK Huf Hm10 Hsz.
      have [ps [E [Hso [Hin Hend]]]] := order_blocks (leqnn _) Hb. rewrite take_size in E.
      exists ps. split=> //. split=> //. split; first by move=> p /Hin [].
      move=> Ex p Hp Hpe. rewrite Ex in Hx. set j := ((p - memory) %/ uf)%N.
      have Hj1 : (j * uf <= p - memory)%N by apply: leq_trunc_div.
      have Hj2 : (p - memory < j.+1 * uf)%N by apply: ltn_ceil.
      have HjN : (j < size bs)%N.
      { rewrite Hx leq_divRL // mulSn. lia. }
      have := Hend j HjN. have -> : block_end uf T (st j) = p; last by [].
      have [H1 _] := Hb j HjN. have := block_end_next Hk HK Huf Hm10 Hsz (leq_addr _ _) H1. rewrite /minn mulSn in Hj2 *.
      case: Hpe => [HT|/dvdnP [q Hq]]; first by case: (ltnP (st j + uf) T); lia.
      have Eq : q = j.+1.
      { apply/eqP. rewrite eqn_leq. apply/andP; split.
        - rewrite -ltnS -(ltn_pmul2r Huf). rewrite -Hq !mulSn. lia.
        - rewrite -(ltn_pmul2r Huf) -Hq. lia. }
      rewrite Eq mulSn in Hq. case: (ltnP (st j + uf) T); lia.
    Qed.
  End Data.
End Items.
