(** * construct_cmiewma_factor_model: contents of the items. *)
From Coq Require Import Classical_Prop Reals Lra ZArith String List Lia.
Set Warnings "-notation-overridden,-ambiguous-paths".
From mathcomp Require Import all_ssreflect all_algebra.
From Verif Require Import RStruct MatR Num Py ListFacts XRFacts Ewma EwmaPrefix Spec SpecEwma EwmaFirst Combination SpecComb CombFacts CombBuild CombSolve CombRun CombProps CombItems RealLA SpecCombR CombReal CombExact FromEwmas SpecFrom FromEwmasProps ExpUtils CombPerm Trader TraderMain BacktestProps RetComb SpecRet RetEwm RetPred FactorModel SpecFactor FactorCov FactorCov2 FactorMain FactorLoop FactorItems.
Set Implicit Arguments.
Unset Strict Implicit.
Unset Printing Implicit Defensive.
Import GRing.Theory.
Local Open Scope ring_scope.
Delimit Scope R_scope with re.
Delimit Scope Z_scope with z.

Lemma dict_get_In V (d : seq (Z * V)) t v : dict_get Z.eqb d t = Some v -> List.In (t, v) d.
Proof.
  elim: d => //= [[u w] d IH] /=. case: (Z.eqb_spec t u) => [-> [->]|_ H]; first by left. right. exact: IH.
Qed.
Lemma facs_take n k (E : 'M[R]_(k, n)) L rows : take L (facs E rows) = facs E (take L rows).
Proof. by rewrite /facs map_take. Qed.

Section Item.
  Context (n k K : nat) (label : option xr * option xr -> string) (pca : seq 'cV[R]_n -> res 'M[R]_(k, n)) (slv : solver (RLA k K)).
  Context (pairs : seq (option xr * option xr)) (uf memory : nat).
  Hypothesis Hk : (0 < k)%N.
  Hypothesis Hhl : positive_halflives pairs.
  Hypothesis Hlab : List.NoDup (map label pairs).
  Hypothesis HK : K = size pairs.
  Hypothesis Huf : (0 < uf)%N.
  Hypothesis Hm10 : (10 <= memory)%N.
  Notation run times rows := (construct_cmiewma_factor_model label pca slv times rows pairs uf memory).
  Notation block times rows t := (fm_block label pca slv times rows pairs uf memory t).

  Section Data.
    Context (times : seq Z) (rows : seq 'cV[R]_n).
    Hypothesis Hinc : increasing times.
    Hypothesis Hsz : size rows = size times.
    Notation T := (size times).
    Notation N := ((T - memory + uf.-1) %/ uf)%N.
    Notation st j := (memory + j * uf)%N.

    Lemma kept_issued (E : 'M[R]_(k, n)) e m p pr start S : (e < T)%N -> (p <= e)%N -> first_move (fx (facs E (take e.+1 rows))) k m ->
      (warm k m <= p)%N -> List.In pr pairs ->
      List.In (nth Z0 times p, S) (kept k start (outs (take e.+1 times) (facs E (take e.+1 rows)) pr)) -> expert_cov E times rows p pr false S.
    Proof.
      move=> He Hp Hm Hw Hpr /In_map [o [[Et <-] /In_filter [Ho _]]].
      have Hi := increasing_take e.+1 Hinc.
      have Hst : size (facs E (take e.+1 rows)) = size (take e.+1 times) by rewrite size_map !size_take Hsz.
      have HsL : size (take e.+1 times) = e.+1 by rewrite size_takel.
      have Hmp : (maxn k.-1 m < p.+1)%N by apply: leq_trans Hw; exact: leq_addr.
      have HpL : (p.+1 <= size (take e.+1 times))%N by rewrite HsL.
      have [more [Eo Hmore]] := outs_take Hk Hhl HK Hi Hst Hmp HpL Hm Hpr.
      have Htt : take p.+1 (take e.+1 times) = take p.+1 times by rewrite take_take.
      have Htr : take p.+1 (facs E (take e.+1 rows)) = facs E (take p.+1 rows) by rewrite facs_take take_take.
      rewrite Htt Htr in Eo.
      have Hm' : first_move (fx (facs E (take p.+1 rows))) k m.
      { rewrite -Htr. apply: (first_move_take Hk HK _ Hm). move: Hmp. rewrite /maxn. case: (ltnP k.-1 m); lia. }
      have Hst' : size (facs E (take p.+1 rows)) = size (take p.+1 times) by rewrite size_map !size_take Hsz.
      have Hlt' : (maxn k.-1 m < size (take p.+1 times))%N by rewrite size_takel; lia.
      have [Er _] := outs_times (increasing_take p.+1 Hinc) Hst' Hk Hhl Hm' Hlt' Hpr.
      exists (outs (take p.+1 times) (facs E (take p.+1 rows)) pr), o. split; first exact: Er. split=> //.
      rewrite Eo in Ho. case: (List.in_app_or _ _ _ Ho) => // Hin. exfalso.
      have := proj1 (List.Forall_forall _ _) Hmore o Hin. rewrite Et => /(In_nthP Z0) [j]. rewrite size_drop HsL => Hj Ej.
      rewrite nth_drop nth_take in Ej; last lia. have := @inc_nth_lt times p (p.+1 + j) Hinc. rewrite -Ej. move=> H.
      have : (nth Z0 times p < nth Z0 times p)%z by apply: H; lia. lia.
    Qed.
    Lemma experts_issued (E : 'M[R]_(k, n)) e m p a j S : (e < T)%N -> (p <= e)%N -> first_move (fx (facs E (take e.+1 rows))) k m ->
      (warm k m <= p)%N -> (j < size pairs)%N ->
      cov_of (experts label (take e.+1 times) (facs E (take e.+1 rows)) pairs a) j (nth Z0 times p) = Some S ->
      expert_cov E times rows p (nth (None, None) pairs j) (j == 0%N) S.
    Proof.
      move=> He Hp Hm Hw Hj. rewrite /cov_of /expert nthE => Hg0. move: {Hg0}(dict_get_In Hg0).
      have Hin : List.In (nth (None, None) pairs j) pairs by apply/(In_nthP (None, None)); exists j.
      have Hki := @kept_issued E e m p _ a _ He Hp Hm Hw Hin.
      rewrite /experts. case: pairs Hj Hki => [//|pr ps]. case: j {Hin} => [|j] Hj Hki.
      - rewrite [nth _ (_ :: _) _]/= [(0 == 0)%N]/=. cbn [snd] => /In_map [ts [[E1 <-] Hts]].
        have {}Hts : List.In (nth Z0 times p, ts.2) (kept k a (outs (take e.+1 times) (facs E (take e.+1 rows)) pr)) by rewrite -E1 -surjective_pairing.
        have [o' [o [H1 [H2 [H3 H4]]]]] := Hki _ Hts. exists o', o. split=> //. split=> //. split=> //. by rewrite /plus_diag H4.
      - rewrite [nth _ (_ :: _) _]/= (nth_map (None, None)) //. cbn [snd]. exact: Hki.
    Qed.

    Lemma block_start_of j p : (st j <= p)%N -> (p < st j.+1)%N -> block_start uf memory p = st j.
    Proof.
      move=> H1 H2. rewrite /block_start. have -> // : ((p - memory) %/ uf = j)%N.
      apply/eqP. rewrite eqn_leq -ltnS ltn_divLR // leq_divRL //. rewrite mulSn in H2 *. lia.
    Qed.

    Theorem item_contents i : returns_feasible slv -> List.In i (run times rows).1 ->
      exists p, (memory <= p < T)%N /\ f_time i = nth Z0 times p /\
        pca (train_rows rows memory (block_start uf memory p)) = Ok (f_exposure i) /\
        f_diag i = \col_a idio (f_exposure i) rows p a /\
        spd (f_cov i) /\ exists w F, feasible K w /\
          (forall j, (j < K)%N -> exists S, expert_cov (f_exposure i) times rows p (nth (None, None) pairs j) (j == 0%N) S /\
                                          S \in unitmx /\ is_chol (invmx S) (F j)) /\
          invmx (f_cov i) = avg_factor K F w *m (avg_factor K F w)^T.
    Proof.
      move=> Hf. have [bs [ex [-> [Hs [Hb Hx]]]]] /= := run_split label pca slv Hk HK Huf Hm10 Hsz.
      move=> Hin0. have [j Hj Hin] := In_flatten Hin0. have [H1 H2] := Hb j Hj.
      have Hmt : (memory <= st j)%N by apply: leq_addr.
      have [He1 He2] := block_bounds Hk HK Huf Hm10 Hsz Hmt H1. have He3 := block_end_next Hk HK Huf Hm10 Hsz Hmt H1.
      have [E [covs [m [HE [Hcov [Hm]]]]]] := block_ok Hk Hhl Hlab HK Huf Hm10 Hinc Hsz Hmt H1 H2. cbv zeta.
      set e := block_end uf T (st j) in He1 He2 He3 Hcov Hm *. set p0 := first_kept _ _ _. set b := (p0 + _)%N.
      move=> [Hp0 [Hb1 [Hb2 [Hsc [Ht Ei]]]]]. move: Hin. rewrite Ei => /In_map [c [<- Hc]] /=.
      have {}Hc : (c < size covs)%N by move: Hc; rewrite -[iota _ _]List.map_id => /In_map [c' [<-]]; move=> /(In_nthP 0%N) [c'']; rewrite size_iota => Hc'' ->; rewrite nth_iota.
      set p := (b + c)%N. have Hpe : (p <= e)%N by rewrite /p; lia.
      exists p. split; first by rewrite /p; lia. split=> //.
      have He4 : (e < st j.+1)%N by have := geq_minl (st j + uf) T; rewrite -He3 mulSn; lia.
      rewrite (@block_start_of j p) //; [|rewrite /p; lia|lia]. split=> //. split=> //.
      have Hst : size (facs E (take e.+1 rows)) = size (take e.+1 times) by rewrite size_map !size_take Hsz.
      have HsL : size (take e.+1 times) = e.+1 by rewrite size_takel.
      have Ha : (st j - 10 < size (take e.+1 times))%N by rewrite HsL; lia.
      have Hcov' := Hcov. rewrite -(@nth_take e.+1 _ Z0 (st j - 10)) in Hcov'; last lia.
      have HtS : List.In (nth (Z0, 0) covs c) covs by apply/(In_nthP (Z0, 0)); exists c.
      have [G1 [w [F [G2 [G3 G4]]]]] := cfc_cov Hk Hhl Hlab HK (increasing_take e.+1 Hinc) Hst Ha Hf Hcov' HtS.
      rewrite (nth_map (Z0, 0)) //. split=> //. exists w, F. split=> //. split=> // i' Hi'.
      have E1 : (nth (Z0, 0) covs c).1 = nth Z0 times p.
      { rewrite -(nth_map (Z0, 0) Z0 fst) // Ht nth_drop nth_take //. }
      have Hes : List.length (experts label (take e.+1 times) (facs E (take e.+1 rows)) pairs (nth Z0 (take e.+1 times) (st j - 10))) = K.
      { rewrite HK. exact: experts_size. }
      have Hi2 : (i' < List.length (experts label (take e.+1 times) (facs E (take e.+1 rows)) pairs (nth Z0 (take e.+1 times) (st j - 10))))%N by rewrite Hes.
      have [S [C1 [C2 C3]]] := G3 i' Hi2. rewrite E1 in C1. exists S. split=> //.
      have Hw : (warm k m <= p)%N by have H : (warm k m <= p0)%N := leq_maxr _ _; rewrite /p /b; lia.
      apply: (experts_issued He2 Hpe Hm Hw _ C1). by rewrite -HK.
    Qed.
  End Data.
End Item.
