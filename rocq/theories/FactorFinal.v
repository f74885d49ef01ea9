(** * factor_model.py: full covariances of a run, failures. *)
From Coq Require Import Classical_Prop Reals Lra ZArith String List Lia.
Set Warnings "-notation-overridden,-ambiguous-paths".
From mathcomp Require Import all_ssreflect all_algebra.
From Verif Require Import RStruct MatR Num Py ListFacts XRFacts Ewma EwmaPrefix Spec SpecEwma EwmaFirst Combination SpecComb CombFacts CombBuild CombSolve CombRun CombProps CombItems RealLA SpecCombR CombReal CombObj CombExact CombOk FromEwmas SpecFrom FromEwmasProps ExpUtils SpecExp ExpLL CombPerm Trader TraderMain BacktestProps RetComb SpecRet RetEwm RetPred FactorModel SpecFactor FactorCov FactorCov2 FactorMain FactorLoop FactorItems FactorItem FactorPrefix FactorFull FactorLive.
Set Implicit Arguments.
Unset Strict Implicit.
Unset Printing Implicit Defensive.
Import GRing.Theory.
Local Open Scope ring_scope.
Delimit Scope R_scope with re.
Delimit Scope Z_scope with z.

Section Final.
  Context (n k K : nat) (label : option xr * option xr -> string) (pca : seq 'cV[R]_n -> res 'M[R]_(k, n)) (slv : solver (RLA k K)).
  Context (pairs : seq (option xr * option xr)) (uf memory : nat).
  Context (times : seq Z) (rows : seq 'cV[R]_n).
  Notation T := (size times).
  Notation run := (construct_cmiewma_factor_model label pca slv times rows pairs uf memory).
  Notation block t := (fm_block label pca slv times rows pairs uf memory t).

  (** *** Without assumptions on the data *)
  Lemma run_zero_step : uf = 0%N -> run = ([::], Some ValueError).
  Proof. by move=> ->. Qed.
  Lemma run_short : (0 < uf)%N -> (T <= memory)%N -> run = ([::], None).
  Proof.
    move=> Huf H. rewrite /construct_cmiewma_factor_model. have -> : (uf == 0%N) = false by case: uf Huf.
    rewrite /step_range. have -> : ((T - memory + uf.-1) %/ uf = 0)%N by apply: divn_small; case: uf Huf => // u; lia. by [].
  Qed.
  Lemma run_first_fails e : (0 < uf)%N -> (memory < T)%N -> block memory = Raise e -> run = ([::], Some e).
  Proof.
    move=> Huf H Hb. rewrite /construct_cmiewma_factor_model. have -> : (uf == 0%N) = false by case: uf Huf.
    rewrite /step_range. have : (0 < (T - memory + uf.-1) %/ uf)%N by rewrite divn_gt0 //; lia.
    case: (_ %/ _)%N => //= N _. by rewrite mul0n addn0 Hb.
  Qed.

  Hypothesis Huf : (0 < uf)%N.
  Hypothesis Hinc : increasing times.
  Hypothesis Hsz : size rows = size times.

  Section Short_memory.
    (** memory < 10: index[t - 10] is an index from the end. *)
    Hypothesis Hk : (0 < k)%N.
    Hypothesis Hhl : positive_halflives pairs.
    Hypothesis Hlab : List.NoDup (map label pairs).
    Hypothesis HK : K = size pairs.

    Lemma pyget_neg (A : Type) (d : A) (l : seq A) i : (0 < i <= size l)%N -> pyget l (- Z.of_nat i)%z = Ok (nth d l (size l - i)).
    Proof.
      move=> Hi. rewrite /pyget /pynorm. change (List.length l) with (size l).
      have -> : Z.ltb (- Z.of_nat i) 0 by apply/Z.ltb_lt; lia.
      have -> : (Z.leb 0 (Z.of_nat (size l) + - Z.of_nat i) && Z.ltb (Z.of_nat (size l) + - Z.of_nat i) (Z.of_nat (size l)))%bool.
      { apply/andP. split; [apply/Z.leb_le|apply/Z.ltb_lt]; lia. }
      have -> : Z.to_nat (Z.of_nat (size l) + - Z.of_nat i) = (size l - i)%N by lia.
      rewrite -(@nthE A). rewrite (List.nth_error_nth' l d) //. apply/ltP. change (List.length l) with (size l). lia.
    Qed.
    Lemma pyget_some (A : Type) (l : seq A) i : (- Z.of_nat (size l) <= i < Z.of_nat (size l))%z -> exists x, pyget l i = Ok x.
    Proof.
      move=> Hi. case: l Hi => [|d l] Hi; first by move: Hi => /= ?; lia.
      case: (Z.leb_spec 0 i) => H.
      - have [j Ej] : exists j, i = Z.of_nat j by exists (Z.to_nat i); lia. subst i. exists (nth d (d :: l) j). apply: pygetE. lia.
      - have [j Ej] : exists j, i = (- Z.of_nat j)%z by exists (Z.to_nat (- i)); lia. subst i. exists (nth d (d :: l) (size (d :: l) - j)).
        apply: pyget_neg. lia.
    Qed.

    Lemma cfc_future ts (fs : seq 'cV[R]_k) start : increasing ts -> size fs = size ts -> (forall t, List.In t ts -> (t < start)%z) ->
      construct_factor_covariance label slv ts fs pairs start = Raise IndexError.
    Proof.
      move=> Hi Hs Hst. case: (Classical_Prop.classic (pairs = [::])) => [E|Hne].
      { rewrite /construct_factor_covariance. by rewrite E. }
      case: (move_cases Hs Hk) => [Hz|[m Hm1 Hm]].
      { have Fl p (Hp : List.In p pairs) := outs_none Hi Hs Hk Hhl Hz Hp. by rewrite runs_fail. }
      case: (ltnP (maxn k.-1 m) (size ts)) => Hlt; last first.
      { have Fl p (Hp : List.In p pairs) := outs_late Hi Hs Hk Hhl Hm Hlt Hp. by rewrite runs_fail. }
      rewrite cfc_form //; last by move=> p Hp; exact: (outs_times Hi Hs Hk Hhl Hm Hlt Hp).1.
      have Hke p : List.In p pairs -> kept k start (outs ts fs p) = [::].
      { move=> Hp. rewrite /kept. have [_ Et] := outs_times Hi Hs Hk Hhl Hm Hlt Hp.
        rewrite -filterE ListFacts.filter_none // => o Ho. apply/Z.leb_gt. apply: Hst.
        have : List.In (itime o) (map itime (outs ts fs p)) by apply/In_map; exists o.
        rewrite Et -skipnE. exact: FromEwmasProps.skipn_In. }
      have Hex ks : List.In ks (experts label ts fs pairs start) -> ks.2 = [::].
      { have Hke2 : forall p, List.In p pairs -> kept k start (outs ts fs p) = [::] := Hke. rewrite /experts.
        case: pairs Hke2 => [//|p ps] Hke2 [<-|/In_map [q [<- Hq]]] /=; rewrite Hke2 //; by [left|right]. }
      set s := experts label ts fs pairs start in Hex.
      have Hkeys : map fst s = map label pairs by rewrite /s /experts; case: (pairs) => //= p ps; rewrite -map_comp.
      have Hd : dicts s.
      { split; first by rewrite mapE Hkeys. apply/List.Forall_forall => ks Hks. rewrite Hex //. constructor. }
      have Hf : forecast_times (RLA k K) s = [::].
      { rewrite /forecast_times. case E: s => [|ks l] //. rewrite (Hex ks) // E. by left. }
      have Hsame : same_times (RLA k K) s by move=> ks t Hks; rewrite Hf Hex.
      have Hfe : factors_exist (RLA k K) s by move=> ks tS Hks; rewrite Hex.
      rewrite /finish -/s. have Hc := from_sigmas_ok (RLA k K) s (zip ts fs) None Hd Hsame Hfe I.
      rewrite Hc. cbn [bind]. rewrite (schedule_short (RLA k K) _ _ _ _ slv (Some 10%N) Hd Hc) //. rewrite Hf /=. lia.
    Qed.

    Theorem short_memory : (memory < 10)%N -> (uf + 10 <= T)%N -> (forall l, exists E, pca l = Ok E) -> run = ([::], Some IndexError).
    Proof.
      move=> Hm HT Hpca. apply: run_first_fails => //; first lia.
      rewrite /fm_block. have [x1 ->] : exists x, pyget times (Z.of_nat memory - 1) = Ok x by apply: pyget_some; lia.
      have [x2 ->] : exists x, pyget times (Z.of_nat memory - Z.of_nat memory) = Ok x by apply: pyget_some; lia.
      have -> : (Z.of_nat memory - 10)%z = (- Z.of_nat (10 - memory))%z by lia.
      rewrite (pyget_neg Z0); last lia.
      have -> : Z.min (Z.of_nat memory + Z.of_nat uf - 1) (Z.of_nat T - 1) = Z.of_nat (memory + uf - 1) by lia.
      have Hl : (memory + uf - 1 < T)%N by lia.
      rewrite (pygetE Z0) //. cbn [bind]. have [E ->] := Hpca [seq p.2 | p <- zip times rows & Z.leb p.1 x1 && Z.leb x2 p.1]. cbn [bind].
      rewrite (upto_filter 0) //. set e := (memory + uf - 1)%N in Hl *.
      have Hs2 : size (take e.+1 rows) = size (take e.+1 times) by rewrite !size_take Hsz.
      rewrite unzip1_zip; last by rewrite Hs2.
      rewrite cfc_future //; first exact: increasing_take.
      - by rewrite size_map size_zip Hs2 minnn.
      - move=> t /(In_nthP Z0) [j]. rewrite size_takel // => Hj ->. rewrite nth_take //. apply: inc_nth_lt => //; rewrite /e in Hj Hl; lia.
    Qed.
  End Short_memory.

  Hypothesis Hm10 : (10 <= memory)%N.

  Theorem no_pairs E : (memory < T)%N -> pairs = [::] -> pca (train_rows rows memory memory) = Ok E -> run = ([::], Some IndexError).
  Proof.
    move=> HT Hp HE. apply: run_first_fails => //. rewrite block_form //; try lia. rewrite HE. cbn [bind]. by rewrite Hp.
  Qed.
  Theorem pca_fails e : (memory < T)%N -> pca (train_rows rows memory memory) = Raise e -> run = ([::], Some e).
  Proof. move=> HT HE. apply: run_first_fails => //. rewrite block_form //; try lia. by rewrite HE. Qed.

  Hypothesis Hk : (0 < k)%N.
  Hypothesis Hhl : positive_halflives pairs.
  Theorem factors_still E : (memory < T)%N -> pca (train_rows rows memory memory) = Ok E ->
    (forall s, (s < minn (memory + uf) T)%N -> factor_return E rows s = 0) -> run = ([::], Some IndexError).
  Proof.
    move=> HT HE H. apply: run_first_fails => //. rewrite block_form //; try lia. rewrite HE. cbn [bind].
    set e := block_end uf T memory.
    have He3 : e.+1 = minn (memory + uf) T by rewrite /e /block_end /minn; case: (ltnP (memory + uf - 1) (T - 1)); case: (ltnP (memory + uf) T); lia.
    have HeT : (e.+1 <= T)%N by rewrite He3 geq_minr.
    have Hst : size (facs E (take e.+1 rows)) = size (take e.+1 times) by rewrite size_map !size_take Hsz.
    case: (Classical_Prop.classic (pairs = [::])) => [E0|Hne]; first by rewrite E0.
    rewrite runs_fail // => p Hp. apply: (outs_none (increasing_take e.+1 Hinc) Hst Hk Hhl _ Hp) => s. rewrite size_takel // => Hs.
    rewrite (nth_map 0) ?size_takel ?Hsz // nth_take //. apply: H. by rewrite -He3.
  Qed.

  Hypothesis Hlab : List.NoDup (map label pairs).
  Hypothesis HK : K = size pairs.

  Lemma block_nonempty t items : (memory <= t)%N -> (t < T)%N -> block t = Ok items -> items <> [::].
  Proof.
    move=> H1 H2 Hb. have [b Hb1 Hb2] := block_positions Hk Hhl Hlab HK Huf Hm10 Hinc Hsz H1 H2 Hb. move=> E0. rewrite E0 /= in Hb2.
    have := f_equal size Hb2. rewrite size_map size_iota /=. lia.
  Qed.
  Theorem never_solved : (memory < T)%N -> (forall h p, slv h p = None) -> exists e, run = ([::], Some e).
  Proof.
    move=> HT Hn. case Eb: (block memory) => [items|e]; last by exists e; apply: run_first_fails.
    exfalso. have [E [covs [m [HE [Hcov [Hm]]]]]] := block_ok Hk Hhl Hlab HK Huf Hm10 Hinc Hsz (leqnn _) HT Eb.
    cbv zeta. set e := block_end uf T memory in Hcov Hm *. set p0 := first_kept _ _ _. move=> [Hp0 [Hb1 [Hb2 [Hsc _]]]].
    have [He1 He2] := block_bounds Hk HK Huf Hm10 Hsz (leqnn _) HT. rewrite -/e in He1 He2.
    have Hst : size (facs E (take e.+1 rows)) = size (take e.+1 times) by rewrite size_map !size_take Hsz.
    have HsL : size (take e.+1 times) = e.+1 by rewrite size_takel.
    have Ha : (memory - 10 < size (take e.+1 times))%N by rewrite HsL; lia.
    have Hcov' := Hcov. rewrite -(@nth_take e.+1 _ Z0 (memory - 10)) in Hcov'; last lia.
    have [m' [c [rs [Hm' [Hlt [Hne [Hc [Hs [Ec _]]]]]]]]] := cfc_ok Hk Hhl Hlab (increasing_take e.+1 Hinc) Hst Ha Hcov'.
    have Hd := experts_dicts (increasing_take e.+1 Hinc) Hst Hk Hhl Hlab Hm' Hlt Ha.
    case: rs Hs Ec => [|r rs] Hs Ec; first by move: Hsc; rewrite Ec /=; lia.
    have Hin : List.In (Some r) (map Some (r :: rs)) by left.
    have [h [t [p [w [Hw _]]]]] := solve_items (RLA k K) _ _ _ _ _ _ _ _ _ _ Hd Hc Hs Hin. by rewrite Hn in Hw.
  Qed.

  (** A failure in a later block: the blocks before it have been delivered. *)
  Theorem failure_at e : run.2 = Some e -> exists c, (memory + c * uf < T)%N /\ block (memory + c * uf) = Raise e /\
    forall i, List.In i run.1 -> exists p, (memory <= p < memory + c * uf)%N /\ f_time i = nth Z0 times p.
  Proof.
    have [bs [ex [-> [Hs [Hb Hx]]]]] /= := run_split label pca slv Hk HK Huf Hm10 Hsz. move=> E. rewrite E in Hx. case: Hx => [Hlt Hr].
    exists (size bs). split; first exact: (st_lt Hk HK Huf Hm10 Hsz Hlt). split=> // i Hi.
    have [ps [Et [_ [Hin _]]]] := order_blocks Hk Hhl Hlab HK Huf Hm10 Hinc Hsz (leqnn _) Hb. rewrite take_size in Et.
    have : List.In (f_time i) (map (@f_time n k) (flatten bs)) by apply/In_map; exists i.
    rewrite Et => /In_map [p [<- Hp]]. exists p. split=> //.
    have Hp' : p \in ps by apply/(nthP 0%N); case: (proj1 (In_nthP 0%N ps p) Hp) => j Hj ->; exists j.
    have [H1 H2] := Hin p Hp'. lia.
  Qed.

  (** Full covariances *)
  Theorem full_of_run i : returns_feasible slv -> List.In i run.1 ->
    exists p, (memory <= p < T)%N /\ f_time i = nth Z0 times p /\
      full_cov i = (f_exposure i)^T *m f_cov i *m f_exposure i + diag_mx (\row_a idio (f_exposure i) rows p a) /\
      (forall a, 0 <= idio (f_exposure i) rows p a)%re /\
      psd (full_cov i) /\
      (spd (full_cov i) <-> forall x : 'cV[R]_n, x <> 0 -> f_exposure i *m x <> 0 \/
         exists a s, (s <= p)%N /\ residual (f_exposure i) rows s a ord0 <> 0 /\ x a ord0 <> 0).
  Proof.
    move=> Hf Hin. have [p [Hp [Ht [_ [Hdg [Hc _]]]]]] := item_contents Hk Hhl Hlab HK Huf Hm10 Hinc Hsz Hf Hin.
    have Hge : terms_ge0 i by move=> a; rewrite Hdg mxE; exact: idio_ge0.
    exists p. split=> //. split=> //. split.
    { rewrite /full_cov Hdg. congr (_ + diag_mx _). apply/rowP => a. by rewrite !mxE. }
    split; first by move=> a; exact: idio_ge0. split; first exact: full_psd.
    rewrite full_spd //. split=> H x Hx; case: (H x Hx) => [|[a]]; try by left.
    - move=> [Ha Hxa]. right. exists a. rewrite Hdg mxE in Ha. apply: NNPP => Hn. apply: Ha. apply/idio_zero => s Hs.
      apply: NNPP => Hr. apply: Hn. by exists s.
    - move=> [s [Hs [Hr Hxa]]]. right. exists a. split=> //. rewrite Hdg mxE => E0. apply: Hr. exact: (proj1 (idio_zero _ _ _ _) E0 s Hs).
  Qed.
  Theorem dict_of_run : from_factor_to_full_covariance run.1 = [seq (f_time i, full_cov i) | i <- run.1].
  Proof.
    apply: full_dict. have [ps [-> [Hs [Hr _]]]] := order pca slv Hk Hhl Hlab HK Huf Hm10 Hinc Hsz.
    apply: increasing_NoDup. have H : forall p, p \in ps -> (p < T)%N by move=> p /Hr; lia.
    elim: ps Hs H {Hr} => [//|p ps IH] Hs H. case: ps IH Hs H => [//|q ps] IH /= /andP [Hpq Hs] H. split.
    - apply: inc_nth_lt => //. apply: H. by rewrite !inE eqxx orbT.
    - apply: IH => // r Hr. apply: H. by rewrite inE Hr orbT.
  Qed.
End Final.
