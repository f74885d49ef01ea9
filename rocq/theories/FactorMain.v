(** * construct_cmiewma_factor_model: blocks and loop. *)
From Coq Require Import Classical_Prop Reals Lra ZArith String List Lia.
Set Warnings "-notation-overridden,-ambiguous-paths".
From mathcomp Require Import all_ssreflect all_algebra.
From Verif Require Import RStruct MatR Num Py ListFacts XRFacts Ewma EwmaPrefix Spec SpecEwma EwmaFirst Combination SpecComb CombFacts CombBuild CombSolve CombRun CombProps CombItems RealLA SpecCombR CombReal CombExact FromEwmas SpecFrom FromEwmasProps ExpUtils CombPerm Trader TraderMain BacktestProps RetComb SpecRet RetEwm RetPred FactorModel SpecFactor FactorCov FactorCov2.
Set Implicit Arguments.
Unset Strict Implicit.
Unset Printing Implicit Defensive.
Import GRing.Theory.
Local Open Scope ring_scope.
Delimit Scope R_scope with re.
Delimit Scope Z_scope with z.

Lemma pygetE A (d : A) (l : seq A) i : (i < size l)%N -> pyget l (Z.of_nat i) = Ok (nth d l i).
Proof. move=> H. rewrite (pyget_nat l i d); first by rewrite nthE. exact/ltP. Qed.
Lemma upto_filter A (d : A) times (l : seq A) e : increasing times -> size l = size times -> (e < size times)%N ->
  [seq p <- zip times l | Z.leb p.1 (nth Z0 times e)] = zip (take e.+1 times) (take e.+1 l).
Proof.
  move=> Hinc Hsz He. have Hm : map fst (zip times l) = times by rewrite -/unzip1 unzip1_zip // Hsz.
  have := @filter_window _ d (zip times l) 0 e. rewrite Hm size_zip Hsz minnn drop0 subn0 => H.
  transitivity (take e.+1 (zip times l)).
  - rewrite -H // -!filterE. apply: List.filter_ext_in => q /(In_nthP (Z0, d)) [j]. rewrite size_zip Hsz minnn => Hj ->.
    rewrite nth_zip //=. have -> // : Z.leb (nth Z0 times 0) (nth Z0 times j). apply/Z.leb_le. exact: inc_nth_le.
  - elim: e.+1 times l {Hm H Hinc He} Hsz => [|e' IH] [|t ts] [|x l] //= [Hs]. by rewrite IH.
Qed.

Section Main.
  Context (n k K : nat) (label : option xr * option xr -> string) (pca : seq 'cV[R]_n -> res 'M[R]_(k, n)) (slv : solver (RLA k K)).
  Context (pairs : seq (option xr * option xr)).
  Implicit Types (times : seq Z) (rows : seq 'cV[R]_n) (E : 'M[R]_(k, n)).

  Definition facs (E : 'M[R]_(k, n)) rows : seq 'cV[R]_k := [seq E *m r | r <- rows].
  Definition lookup (E : 'M[R]_(k, n)) (times : seq Z) (rows : seq 'cV[R]_n) (tc : Z * 'M[R]_k) : res (fitem n k) :=
    do d <- or_raise (dict_get Z.eqb (zip times (diag_rows [seq r - E^T *m (E *m r) | r <- rows])) tc.1) KeyError;
    Ok (mkItem tc.1 E tc.2 d).

  Lemma block_form times rows uf memory t : increasing times -> size rows = size times -> (0 < uf)%N -> (0 < memory)%N ->
    (memory <= t)%N -> (10 <= t)%N -> (t < size times)%N ->
    let e := block_end uf (size times) t in
    fm_block label pca slv times rows pairs uf memory t =
    do E <- pca (train_rows rows memory t);
    do covs <- construct_factor_covariance label slv (take e.+1 times) (facs E (take e.+1 rows)) pairs (nth Z0 times (t - 10));
    mapM (lookup E (take e.+1 times) (take e.+1 rows)) covs.
  Proof.
    move=> Hinc Hsz Huf Hmem Hmt Ht10 HtT e. rewrite /fm_block.
    have He : (e < size times)%N by have : (e <= size times - 1)%N := geq_minr _ _; lia.
    have -> : (Z.of_nat t - 1)%z = Z.of_nat (t - 1) by lia.
    have -> : (Z.of_nat t - Z.of_nat memory)%z = Z.of_nat (t - memory) by lia.
    have -> : (Z.of_nat t - 10)%z = Z.of_nat (t - 10) by lia.
    have -> : Z.min (Z.of_nat t + Z.of_nat uf - 1) (Z.of_nat (size times) - 1) = Z.of_nat e.
    { rewrite /e /block_end /minn. case: (ltnP (t + uf - 1) (size times - 1)); lia. }
    rewrite !(pygetE Z0); try lia. cbn [bind].
    have -> : [seq p.2 | p <- zip times rows & Z.leb p.1 (nth Z0 times (t - 1)) && Z.leb (nth Z0 times (t - memory)) p.1] = train_rows rows memory t.
    { have := @label_window _ 0 times rows (t - memory) (t - 1) Hinc Hsz. rewrite /label_slice => H.
      rewrite -[RHS]/(take memory (drop (t - memory) rows)). have -> : memory = (t - 1 - (t - memory)).+1 by lia.
      rewrite -[(t - (t - 1 - (t - memory)).+1)%N]/(t - _)%N. have -> : (t - (t - 1 - (t - memory)).+1 = t - memory)%N by lia.
      rewrite -H; try lia. congr map. rewrite -!filterE. apply: List.filter_ext => q. by rewrite andbC. }
    case: (pca _) => [E|//]. cbn [bind]. rewrite (upto_filter 0) //.
    have Hs2 : size (take e.+1 rows) = size (take e.+1 times) by rewrite !size_take Hsz.
    have Hz1 : unzip1 (zip (take e.+1 times) (take e.+1 rows)) = take e.+1 times by apply: unzip1_zip; rewrite Hs2.
    have Hz2 (B : Type) (f : 'cV[R]_n -> B) : [seq f p.2 | p <- zip (take e.+1 times) (take e.+1 rows)] = map f (take e.+1 rows).
    { rewrite -[in RHS](@unzip2_zip _ _ (take e.+1 times) (take e.+1 rows)); last by rewrite Hs2. by rewrite /unzip2 -map_comp. }
    by rewrite Hz1 (Hz2 _ (fun r => E *m r)) (Hz2 _ (fun r => r - E^T *m (E *m r))).
  Qed.

  (** The diagonal *)
  Lemma diag_rows_nth E rows s : (s < size rows)%N ->
    nth 0 (diag_rows [seq r - E^T *m (E *m r) | r <- rows]) s = \col_i idio E rows s i.
  Proof.
    move=> Hs. rewrite /diag_rows size_map (nth_map 0%N) ?size_iota // nth_iota // add0n. apply/colP => i. rewrite !mxE.
    have Hp : (0 < halflife_factor 21)%re by rewrite halflifeE; exact: half_pos.
    rewrite (ewm_nth Hp) ?size_map //.
    rewrite (@past_mean_all _ (fun s => residual E rows s i ord0 * residual E rows s i ord0)) //= ?halflifeE //.
    move=> q Hq. have Hq' : (q < size rows)%N by lia. rewrite -map_comp (nth_map 0) //=.
  Qed.
  Lemma idio_take E rows L p i : (p < L)%N -> idio E (take L rows) p i = idio E rows p i.
  Proof.
    move=> Hp. rewrite /idio. congr Rdiv. apply: eq_bigr => s _. rewrite /residual /factor_return nth_take //. case: s => s /=. lia.
  Qed.
  Lemma lookup_nth E times rows e p S : increasing times -> size rows = size times -> (e < size times)%N -> (p <= e)%N ->
    lookup E (take e.+1 times) (take e.+1 rows) (nth Z0 times p, S) = Ok (mkItem (nth Z0 times p) E S (\col_i idio E rows p i)).
  Proof.
    move=> Hinc Hsz He Hp. rewrite /lookup /=.
    have Hd : size (diag_rows [seq r - E^T *m (E *m r) | r <- take e.+1 rows]) = e.+1.
    { by rewrite size_map size_iota size_map size_takel // Hsz. }
    have -> : dict_get Z.eqb (zip (take e.+1 times) (diag_rows [seq r - E^T *m (E *m r) | r <- take e.+1 rows])) (nth Z0 times p)
      = Some (\col_i idio E rows p i).
    { apply: dict_get_in.
      - rewrite mapE -/unzip1 unzip1_zip ?Hd ?size_takel // -firstnE. apply: CombSolve.NoDup_firstn. exact: increasing_NoDup.
      - apply/(In_nthP (Z0, 0)). exists p; first by rewrite size_zip Hd size_takel // minnn.
        rewrite nth_zip ?Hd ?size_takel // nth_take // diag_rows_nth ?size_takel ?Hsz //. congr pair. apply/colP => i. rewrite !mxE.
        by rewrite idio_take. }
    by [].
  Qed.
  Definition block_value (E : 'M[R]_(k, n)) times rows (covs : seq (Z * 'M[R]_k)) (b : nat) : seq (fitem n k) :=
    [seq mkItem (nth Z0 times (b + j)) E (nth 0 (map snd covs) j) (\col_i idio E rows (b + j) i) | j <- iota 0 (size covs)].
  Lemma block_mapM E times rows e covs b : increasing times -> size rows = size times -> (e < size times)%N ->
    (exists c, map fst covs = take c (drop b (take e.+1 times))) ->
    mapM (lookup E (take e.+1 times) (take e.+1 rows)) covs = Ok (block_value E times rows covs b).
  Proof.
    move=> Hinc Hsz He. rewrite /block_value. elim: covs b => [//|[t S] covs IH] b [c] /=.
    case Ed: (drop b (take e.+1 times)) => [|t' l]; first by case: c.
    case: c => // c [Et El]. have Hb : (b < size (take e.+1 times))%N.
    { rewrite ltnNge. apply/negP => H. by rewrite drop_oversize in Ed. }
    have Hbe : (b <= e)%N by rewrite size_takel // in Hb.
    have [Et' El'] : t' = nth Z0 times b /\ l = drop b.+1 (take e.+1 times).
    { rewrite (drop_nth Z0 Hb) in Ed. case: Ed => <- <-. by rewrite nth_take. }
    rewrite Et Et' lookup_nth //. rewrite (IH b.+1); last by exists c; rewrite El El'.
    cbn [bind]. rewrite addn0. congr (Ok (_ :: _)). rewrite (iotaDl 1 0) -map_comp. apply: eq_map => j /=. by rewrite add1n addnS.
  Qed.
  Lemma block_value_take E times rows covs b c : block_value E times rows (take c covs) b = take c (block_value E times rows covs b).
  Proof.
    rewrite /block_value -map_take. have -> : take c (iota 0 (size covs)) = iota 0 (size (take c covs)).
    { rewrite take_iota size_take /minn. by []. }
    apply/eq_in_map => j. rewrite mem_iota add0n /= => Hj. congr mkItem. rewrite map_take nth_take //. move: Hj. rewrite size_take. case: ifP; lia.
  Qed.
  Lemma block_value_times E times rows covs b : (b + size covs <= size times)%N ->
    map (@f_time n k) (block_value E times rows covs b) = take (size covs) (drop b times).
  Proof.
    move=> H. apply: (@eq_from_nth _ Z0) => [|j]; first by rewrite !size_map size_iota size_takel // size_drop; lia.
    rewrite !size_map size_iota => Hj. rewrite -map_comp (nth_map 0%N) ?size_iota // nth_iota //= nth_take // nth_drop. by rewrite add0n.
  Qed.
End Main.
