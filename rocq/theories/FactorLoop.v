(** * construct_cmiewma_factor_model: schedule, items, shorter data. *)
From Coq Require Import Classical_Prop Reals Lra ZArith String List Lia.
Set Warnings "-notation-overridden,-ambiguous-paths".
From mathcomp Require Import all_ssreflect all_algebra.
From Verif Require Import RStruct MatR Num Py ListFacts XRFacts Ewma EwmaPrefix Spec SpecEwma EwmaFirst Combination SpecComb CombFacts CombBuild CombSolve CombRun CombProps CombItems RealLA SpecCombR CombReal CombExact FromEwmas SpecFrom FromEwmasProps ExpUtils CombPerm Trader TraderMain BacktestProps RetComb SpecRet RetEwm RetPred FactorModel SpecFactor FactorCov FactorCov2 FactorMain.
Set Implicit Arguments.
Unset Strict Implicit.
Unset Printing Implicit Defensive.
Import GRing.Theory.
Local Open Scope ring_scope.
Delimit Scope R_scope with re.
Delimit Scope Z_scope with z.

Lemma flatten_blocks A (l : seq A) uf c : flatten [seq take uf (drop (j * uf) l) | j <- iota 0 c] = take (c * uf) l.
Proof.
  elim: c => [|c IH]; first by rewrite mul0n take0. rewrite -addn1 iotaD map_cat flatten_cat IH /= cats0 add0n mulnDl mul1n. by rewrite takeD.
Qed.
Lemma flatten_prefix A uf (bs : seq (seq A)) L : (forall j, (j < size bs)%N -> (size (nth [::] bs j) <= uf)%N) ->
  (forall j, (j.+1 < size bs)%N -> size (nth [::] bs j) = uf) ->
  flatten [seq take (L - j * uf) (nth [::] bs j) | j <- iota 0 (size bs)] = take L (flatten bs).
Proof.
  elim: bs L => [|b bs IH] L H1 H2 //=. rewrite mul0n subn0 take_cat. rewrite (iotaDl 1 0) -map_comp.
  have E : [seq ((fun j => take (L - j * uf) (nth [::] (b :: bs) j)) \o addn 1) j | j <- iota 0 (size bs)] =
           [seq take ((L - uf) - j * uf) (nth [::] bs j) | j <- iota 0 (size bs)].
  { apply: eq_map => j /=. by rewrite mulSn subnDA. }
  rewrite E IH; [|by move=> j Hj; apply: (H1 j.+1)|by move=> j Hj; apply: (H2 j.+1)].
  have Hb := H1 0%N isT. rewrite /= in Hb. case: bs H2 {IH H1 E} => [|b' bs] H2.
  - rewrite /= cats0. case: ltnP => H //. by rewrite take_oversize // cats0.
  - have Hu : size b = uf by apply: (H2 0%N). case: ltnP => H; last by rewrite take_oversize // Hu.
    have -> : (L - uf = 0)%N by lia. by rewrite take0 cats0.
Qed.

Section Loop.
  Context (n k K : nat) (label : option xr * option xr -> string) (pca : seq 'cV[R]_n -> res 'M[R]_(k, n)) (slv : solver (RLA k K)).
  Context (pairs : seq (option xr * option xr)) (uf memory : nat).
  Hypothesis Hk : (0 < k)%N.
  Hypothesis Hhl : positive_halflives pairs.
  Hypothesis Hlab : List.NoDup (map label pairs).
  Hypothesis HK : K = size pairs.
  Hypothesis Huf : (0 < uf)%N.
  Hypothesis Hm10 : (10 <= memory)%N.
  Implicit Types (times : seq Z) (rows : seq 'cV[R]_n) (E : 'M[R]_(k, n)).
  Notation run times rows := (construct_cmiewma_factor_model label pca slv times rows pairs uf memory).
  Notation block times rows t := (fm_block label pca slv times rows pairs uf memory t).

  Lemma loop_split times rows ts : exists bs ex,
    fm_loop label pca slv times rows pairs uf memory ts = (flatten bs, ex) /\
    (size bs <= size ts)%N /\ (forall j, (j < size bs)%N -> block times rows (nth 0%N ts j) = Ok (nth [::] bs j)) /\
    match ex with
    | None => size bs = size ts
    | Some e => (size bs < size ts)%N /\ block times rows (nth 0%N ts (size bs)) = Raise e
    end.
  Proof.
    elim: ts => [|t ts [bs [ex [E [Hs [Hb Hx]]]]]] /=; first by exists [::], None.
    case Et: (block times rows t) => [items|e].
    - exists (items :: bs), ex. rewrite E /=. split=> //. split=> //. split; first by case.
      case: ex {E} Hx => [e|] /=; [|by move=> ->]. by [].
    - exists [::], (Some e). by [].
  Qed.
  Lemma loop_of times rows ts bs : size bs = size ts -> (forall j, (j < size ts)%N -> block times rows (nth 0%N ts j) = Ok (nth [::] bs j)) ->
    fm_loop label pca slv times rows pairs uf memory ts = (flatten bs, None).
  Proof.
    elim: ts bs => [|t ts IH] [|b bs] //= [Hs] H. rewrite (H 0%N isT) /= (IH bs Hs) // => j Hj. exact: (H j.+1).
  Qed.

  Section Data.
    Context (times : seq Z) (rows : seq 'cV[R]_n).
    Hypothesis Hinc : increasing times.
    Hypothesis Hsz : size rows = size times.
    Notation T := (size times).

    Lemma move_le (fs : seq 'cV[R]_k) m s : first_move (fx fs) k m -> nth 0 fs s <> 0 -> (m <= s)%N.
    Proof.
      move=> [_ H] Hne. rewrite leqNgt. apply/negP => Hs. apply: Hne. apply/colP => i. rewrite [in RHS]mxE.
      have := H i s. rewrite /fx valK => -> //; exact/ltP.
    Qed.

    Lemma block_bounds t : (memory <= t)%N -> (t < T)%N -> (t <= block_end uf T t)%N /\ (block_end uf T t < T)%N.
    Proof. move=> H1 H2. rewrite /block_end /minn. case: (ltnP (t + uf - 1) (T - 1)); lia. Qed.
    Lemma block_end_next t : (memory <= t)%N -> (t < T)%N -> (block_end uf T t).+1 = minn (t + uf) T.
    Proof. move=> H1 H2. rewrite /block_end /minn. case: (ltnP (t + uf - 1) (T - 1)); case: (ltnP (t + uf) T); lia. Qed.

    Lemma block_ok t items : (memory <= t)%N -> (t < T)%N -> block times rows t = Ok items ->
      let e := block_end uf T t in
      exists E covs m, pca (train_rows rows memory t) = Ok E /\
        construct_factor_covariance label slv (take e.+1 times) (facs E (take e.+1 rows)) pairs (nth Z0 times (t - 10)) = Ok covs /\
        first_move (fx (facs E (take e.+1 rows))) k m /\
        let p0 := first_kept k m (t - 10) in let b := (p0 + minn 10 (e - p0))%N in
        (p0 < e)%N /\ (t <= b)%N /\ (b <= e)%N /\ size covs = (e.+1 - b)%N /\ map fst covs = drop b (take e.+1 times) /\
        items = block_value E times rows covs b.
    Proof.
      move=> Hmt HtT Hb e. have [He1 He2] := block_bounds Hmt HtT. rewrite -/e in He1 He2.
      move: Hb. rewrite block_form //; try lia. rewrite -/e.
      case HE: (pca _) => [E|] //. cbn [bind]. case Hcov: (construct_factor_covariance _ _ _ _ _ _) => [covs|] //. cbn [bind] => Hmap.
      have Hst : size (facs E (take e.+1 rows)) = size (take e.+1 times) by rewrite size_map !size_take Hsz.
      have HsL : size (take e.+1 times) = e.+1 by rewrite size_takel.
      have Ha : (t - 10 < size (take e.+1 times))%N by rewrite HsL; lia.
      have Hcov' := Hcov. rewrite -(@nth_take e.+1 _ Z0 (t - 10)) in Hcov'; last lia.
      have [m [c [rs [Hm [Hlt [Hne [Hc [Hs [Ec [Hp0 Ht]]]]]]]]]] := cfc_ok Hk Hhl Hlab (increasing_take e.+1 Hinc) Hst Ha Hcov'.
      rewrite HsL in Hp0 Ht. rewrite subn1 /= in Ht.
      set p0 := first_kept k m (t - 10) in Hp0 Ht. set b := (p0 + minn 10 (e - p0))%N in Ht.
      have Hp0' : (t - 10 <= p0)%N by apply: leq_maxl.
      have [Hb1 Hb2] : (t <= b)%N /\ (b <= e)%N by rewrite /b /minn; case: (ltnP 10 (e - p0)); lia.
      exists E, covs, m. split=> //. split=> //. split=> //. rewrite -/p0 -/b. split; first lia. split=> //. split=> //.
      split; first by rewrite -(size_map fst) Ht size_drop HsL. split=> //.
      move: Hmap. rewrite (@block_mapM n k E times rows e covs b) //; first by case.
      exists (size (drop b (take e.+1 times))). by rewrite take_size.
    Qed.

    (** Early move: the block starts at t. *)
    Lemma early_first E t m : (3 * k + 8 <= t)%N -> (t < T)%N -> early_move E rows t ->
      first_move (fx (facs E (take (block_end uf T t).+1 rows))) k m -> (memory <= t)%N -> first_kept k m (t - 10) = (t - 10)%N.
    Proof.
      move=> H3 HtT [s Hs Hne] Hm Hmt. have [He1 He2] := block_bounds Hmt HtT.
      have Hms : (m <= s)%N.
      { apply: move_le Hm _. rewrite (nth_map 0) ?size_takel ?Hsz //; last lia. rewrite nth_take //. lia. }
      apply/maxn_idPl. rewrite /warm /maxn. case: (ltnP k.-1 m); lia.
    Qed.
    Lemma block_early t items : (3 * k + 8 <= memory)%N -> (memory <= t)%N -> (t < T)%N ->
      (forall E, pca (train_rows rows memory t) = Ok E -> early_move E rows t) -> block times rows t = Ok items ->
      map (@f_time n k) items = take uf (drop t times) /\ size items = minn uf (T - t).
    Proof.
      move=> H3 Hmt HtT Hea Hb. have [E [covs [m [HE [Hcov [Hm]]]]]] := block_ok Hmt HtT Hb.
      have [He1 He2] := block_bounds Hmt HtT. have He3 := block_end_next Hmt HtT.
      have Hp : (3 * k + 8 <= t)%N by lia.
      rewrite /= (early_first Hp HtT (Hea _ HE) Hm Hmt). set b := (_ + _)%N.
      have -> : b = t by rewrite /b /minn; case: (ltnP 10 (block_end uf T t - (t - 10))); lia.
      move=> [_ [_ [_ [Hs [_ ->]]]]].
      have Hsc : size covs = minn uf (T - t) by rewrite Hs He3 /minn; case: (ltnP (t + uf) T); case: (ltnP uf (T - t)); lia.
      split; last by rewrite size_map size_iota.
      rewrite block_value_times Hsc; last by rewrite /minn; case: (ltnP uf (T - t)); lia.
      rewrite /minn. case: ltnP => // H. rewrite !take_oversize // size_drop //.
    Qed.

    Notation N := ((T - memory + uf.-1) %/ uf)%N.
    Notation st j := (memory + j * uf)%N.
    Lemma st_lt j : (j < N)%N -> (st j < T)%N.
    Proof.
      move=> Hj. have H : (j.+1 * uf <= T - memory + uf.-1)%N by rewrite -leq_divRL. rewrite mulSn in H. lia.
    Qed.
    Lemma range_size : size (step_range memory T uf) = N.
    Proof. by rewrite size_map size_iota. Qed.
    Lemma range_nth j : (j < N)%N -> nth 0%N (step_range memory T uf) j = st j.
    Proof. move=> Hj. by rewrite (nth_map 0%N) ?size_iota // nth_iota. Qed.

    Lemma run_split : exists bs ex, run times rows = (flatten bs, ex) /\ (size bs <= N)%N /\
      (forall j, (j < size bs)%N -> (st j < T)%N /\ block times rows (st j) = Ok (nth [::] bs j)) /\
      match ex with
      | None => size bs = N
      | Some e => (size bs < N)%N /\ block times rows (st (size bs)) = Raise e
      end.
    Proof.
      rewrite /construct_cmiewma_factor_model. have -> : (uf == 0%N) = false by case: uf Huf.
      have [bs [ex [E [Hs [Hb Hx]]]]] := loop_split times rows (step_range memory T uf). rewrite range_size in Hs Hx.
      exists bs, ex. split=> //. split=> //. split.
      - move=> j Hj. split; first by apply: st_lt; lia. rewrite -range_nth; [exact: Hb|lia].
      - case: ex {E} Hx => // e [H1 H2]. by rewrite range_nth in H2.
    Qed.

    Hypothesis H3 : (3 * k + 8 <= memory)%N.
    Hypothesis Hea : all_early pca rows uf memory T.

    Lemma early_blocks bs : (size bs <= N)%N -> (forall j, (j < size bs)%N -> (st j < T)%N /\ block times rows (st j) = Ok (nth [::] bs j)) ->
      forall j, (j < size bs)%N -> map (@f_time n k) (nth [::] bs j) = take uf (drop (st j) times) /\ size (nth [::] bs j) = minn uf (T - st j).
    Proof.
      move=> Hs Hb j Hj. have [H1 H2] := Hb j Hj. apply: block_early H2 => //; first by apply: leq_addr.
      move=> E HE. exact: Hea HE.
    Qed.
    Lemma blocks_times bs : (size bs <= N)%N -> (forall j, (j < size bs)%N -> (st j < T)%N /\ block times rows (st j) = Ok (nth [::] bs j)) ->
      map (@f_time n k) (flatten bs) = take (size bs * uf) (drop memory times).
    Proof.
      move=> Hs Hb. rewrite -flatten_blocks. have Hj := early_blocks Hs Hb. rewrite map_flatten.
      congr flatten. apply: (@eq_from_nth _ [::]) => [|j]; first by rewrite !size_map size_iota. rewrite size_map => Hjs.
      rewrite (nth_map [::]) // (Hj j Hjs).1 (nth_map 0%N) ?size_iota // nth_iota // add0n drop_drop. by rewrite addnC.
    Qed.

    Theorem tiling : let g := run times rows in
      (g.2 = None -> map (@f_time n k) g.1 = drop memory times) /\
      (forall e, g.2 = Some e -> exists2 c, (memory + c * uf < T)%N & map (@f_time n k) g.1 = take (c * uf) (drop memory times)).
    Proof.
      have [bs [ex [-> [Hs [Hb Hx]]]]] /= := run_split. rewrite blocks_times //. split.
      - move=> E. rewrite E in Hx. rewrite take_oversize // size_drop Hx.
        have := ltn_ceil (T - memory + uf.-1) Huf. lia.
      - move=> e E. rewrite E in Hx. exists (size bs) => //. apply: st_lt. by case: Hx.
    Qed.
  End Data.
End Loop.
