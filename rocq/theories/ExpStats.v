(** * ecdf, turnover, MSE and realised covariances. *)
From Coq Require Import Reals ZArith String List Lia Lra.
Set Warnings "-notation-overridden,-ambiguous-paths".
From mathcomp Require Import all_ssreflect all_algebra.
From mathcomp.zify Require Import zify_ssreflect.
From Verif Require Import RStruct MatR Spectral Num Py CombFacts Combination Regularization ExpUtils SpecExp ExpRoll ExpLL.
Set Implicit Arguments.
Unset Strict Implicit.
Unset Printing Implicit Defensive.
Import GRing.Theory.
Local Open Scope ring_scope.
Delimit Scope R_scope with re.

Lemma RlebP (x y : R) : reflect (x <= y)%re (Rleb x y).
Proof. rewrite /Rleb. case: Rle_dec => H; constructor; done. Qed.
Lemma Rleb_trans : transitive Rleb.
Proof. move=> y x z /RlebP H1 /RlebP H2. apply/RlebP. exact: Rle_trans H1 H2. Qed.
Lemma Rleb_total : total Rleb.
Proof. move=> x y. case: (Rle_lt_dec x y) => H; apply/orP; [left|right]; apply/RlebP => //. exact: Rlt_le. Qed.
Lemma Rleb_refl : reflexive Rleb.
Proof. move=> x. apply/RlebP. exact: Rle_refl. Qed.

Lemma count_sorted (s : seq R) i : sorted Rleb s -> (i < size s)%N ->
  (i.+1 <= count (fun x => Rleb x (nth R0 s i)) s)%N /\ (seq.uniq s -> count (fun x => Rleb x (nth R0 s i)) s = i.+1).
Proof.
  move=> Hs Hi. set P := fun x => _. have E: count P s = (count P (take i.+1 s) + count P (drop i.+1 s))%N by rewrite -count_cat cat_take_drop.
  have Ht: count P (take i.+1 s) = i.+1.
  { have Ha: all P (take i.+1 s).
    { apply/(all_nthP R0) => j. rewrite size_takel // => Hj. rewrite nth_take // /P.
      apply: (sorted_leq_nth Rleb_trans Rleb_refl R0 Hs); rewrite ?inE //. exact: leq_trans Hj Hi. }
    move: Ha; rewrite all_count size_takel // => /eqP //. }
  rewrite E Ht; split; first exact: leq_addr.
  move=> Hu. suff ->: count P (drop i.+1 s) = 0%N by rewrite addn0.
  apply/eqP; rewrite -leqn0 leqNgt -has_count. apply/hasPn => x /(nthP R0) [j]. rewrite size_drop => Hj. rewrite nth_drop => <-.
  have Hj': (i.+1 + j < size s)%N by rewrite -ltn_subRL.
  apply/negP => /RlebP H1. have /RlebP H2: Rleb (nth R0 s i) (nth R0 s (i.+1 + j)).
  { apply: (sorted_leq_nth Rleb_trans Rleb_refl R0 Hs); rewrite ?inE //. lia. }
  have /eqP := Rle_antisym _ _ H1 H2. rewrite nth_uniq // => /eqP. lia.
Qed.

Lemma ecdf_ok (data : seq R) :
  let: (x, y) := ecdf data in
  perm_eq x data /\ size y = size data /\
  (forall i j, (i <= j < size data)%N -> Rle (nth R0 x i) (nth R0 x j)) /\
  (forall i, (i < size data)%N -> nth R0 y i = (INR i.+1 / INR (size data))%re /\
     Rle (nth R0 y i) (fraction_le data (nth R0 x i)) /\
     (seq.uniq data -> nth R0 y i = fraction_le data (nth R0 x i))).
Proof.
  rewrite /ecdf. set x := sort Rleb data. have Hp: perm_eq x data by rewrite /x perm_sort.
  have Hs: sorted Rleb x by apply: sort_sorted Rleb_total _. have Hsz: size x = size data by rewrite /x size_sort.
  split=> //. split; first by rewrite size_map size_iota. split.
  - move=> i j /andP[Hij Hj]. apply/RlebP. apply: (sorted_leq_nth Rleb_trans Rleb_refl R0 Hs); rewrite ?inE ?Hsz //. exact: leq_ltn_trans Hij Hj.
  - move=> i Hi. have Ey: nth R0 [seq (INR k / INR (size data))%re | k <- iota 1 (size data)] i = (INR i.+1 / INR (size data))%re.
    { rewrite (nth_map 0%N) ?size_iota // nth_iota //. }
    have Hi': (i < size x)%N by rewrite Hsz.
    have [H1 H2] := count_sorted Hs Hi'. have Hc v: count (fun u => Rleb u v) data = count (fun u => Rleb u v) x by apply/esym/permP.
    have Hn: (0 < INR (size data))%re by apply: lt_0_INR; lia.
    rewrite Ey; do ![split] => //; rewrite /fraction_le Hc.
    + apply: Rmult_le_compat_r; first by apply: Rlt_le; apply: Rinv_0_lt_compat. by apply: le_INR; lia.
    + move=> Hu. by rewrite H2 // (perm_uniq Hp).
Qed.

Section Turn.
  Context (n : nat).
  Notation vec := 'cV[R]_n.
  Lemma l1_ge0 (w : vec) : Rle 0 (l1 w).
  Proof. apply: sumR_ge0 => i _. exact: Rabs_pos. Qed.
  Lemma l1_eq0 (w : vec) : l1 w = 0 <-> w = 0.
  Proof.
    split=> [E|->]; last by rewrite /l1 big1 // => i _; rewrite mxE; apply: Rabs_R0.
    apply/colP => i. rewrite mxE. have := sumR_eq0 (fun i => Rabs_pos (w i ord0)) E i.
    case: (Req_dec (w i ord0) 0) => // H H'. by case: (Rabs_no_R0 _ H).
  Qed.
  Lemma l1_scale (c : R) (w : vec) : l1 (c *: w) = (Rabs c * l1 w)%re.
  Proof. rewrite /l1 RmultE mulr_sumr. apply: eq_bigr => i _. by rewrite mxE; apply: Rabs_mult. Qed.

  Lemma zip_mem2 (A B : eqType) (s : seq A) (t : seq B) a b : (a, b) \in zip s t -> b \in t.
  Proof.
    elim: s t => [|x s IH] [|y t] //=. rewrite !in_cons => /orP[/eqP[_ ->]|/IH ->]; by rewrite ?eqxx ?orbT.
  Qed.
  Lemma days_map (c : R) (ws : seq vec) : zip (behead [seq c *: w | w <- ws]) (take (size [seq c *: w | w <- ws]).-1 [seq c *: w | w <- ws]) =
    [seq (c *: p.1, c *: p.2) | p <- zip (behead ws) (take (size ws).-1 ws)].
  Proof. by rewrite size_map -map_take behead_map zip_map_scale. Qed.

  Lemma turnover_scale (c : R) (ws : seq vec) : c <> 0 -> turnover [seq c *: w | w <- ws] = turnover ws.
  Proof.
    move=> Hc. rewrite /turnover days_map. set ds := zip _ _. rewrite size_map -map_take has_map.
    have Hz (w : vec) : (l1 (c *: w) == 0) = (l1 w == 0).
    { rewrite l1_scale. apply/eqP/eqP => [|->]; last exact: Rmult_0_r. move=> /Rmult_integral [H|//]. by case: (Rabs_no_R0 _ Hc). }
    rewrite (eq_has (a2 := fun w => l1 w == 0)); last by move=> w /=; rewrite Hz.
    have ->: ([seq (c *: p.1, c *: p.2) | p <- ds] == [::]) = (ds == [::]) by case: (ds).
    case: ifP => // /negbT. rewrite negb_or => /andP[_ Hh]. rewrite size_map; congr Some. rewrite big_map.
    have ->: \sum_(p <- ds) (l1 ((c *: p.1, c *: p.2).1 - (c *: p.1, c *: p.2).2)%R / l1 (c *: p.1, c *: p.2).2)%re =
             \sum_(p <- ds) (l1 (p.1 - p.2)%R / l1 p.2)%re; last by [].
    apply: eq_big_seq => -[a b] Hab /=. rewrite -scalerBr !l1_scale.
    have Hb: l1 b != 0.
    { apply: contraNneq Hh => E. apply/hasP. exists b; last by rewrite E. exact: zip_mem2 Hab. }
    move/eqP: Hb => Hb. have Ha := Rabs_no_R0 _ Hc. move: (l1 (a - b)) (l1 b) (Rabs c) Hb Ha => x y z Hb Ha. toR; eqR. field. by split.
  Qed.

  Lemma turnover_ok (ws : seq vec) : (2 <= size ws)%N -> (forall w, w \in ws -> w != 0) ->
    exists v, turnover ws = Some v /\ Rle 0 v /\
      (v = 0 <-> forall k, (k.+1 < size ws)%N -> nth 0 ws k.+1 = nth 0 ws k).
  Proof.
    move=> Hs Hw. rewrite /turnover. set ds := zip _ _.
    have Hsz: size ds = (size ws).-1 by rewrite /ds size_zip size_behead size_takel ?leq_pred // minnn.
    have Hnth k : (k < (size ws).-1)%N -> nth (0, 0) ds k = (nth 0 ws k.+1, nth 0 ws k).
    { move=> Hk. rewrite /ds nth_zip ?size_behead ?size_takel ?leq_pred // nth_behead nth_take //. }
    have Hpos k : (k < size ds)%N -> Rlt 0 (l1 (nth (0, 0) ds k).2).
    { rewrite Hsz => Hk. rewrite Hnth //=. case: (Rle_lt_or_eq_dec _ _ (l1_ge0 (nth 0 ws k))) => // E.
      have /eqP [] : nth 0 ws k != 0 by apply: Hw; apply: mem_nth; exact: leq_trans Hk (leq_pred _). by apply/l1_eq0. }
    have ->: (ds == [::]) = false by apply/negbTE/eqP => E; move: Hsz; rewrite E /=; lia.
    have ->: has (fun w : vec => l1 w == 0) (take (size ws).-1 ws) = false.
    { apply/negbTE/hasPn => w Hwin. apply/eqP => /l1_eq0 E. have := Hw w (mem_take Hwin). by rewrite E eqxx. }
    rewrite /=; eexists; split; first by [].
    have Hn: Rlt 0 (INR (size ds)) by apply: lt_0_INR; rewrite Hsz; lia.
    have Hterm k : (k < size ds)%N -> let p := nth ((0, 0) : vec * vec) ds k in Rle 0 (l1 (p.1 - p.2)%R / l1 p.2)%re.
    { move=> Hk /=. apply: Rmult_le_pos; first exact: l1_ge0. by apply: Rlt_le; apply: Rinv_0_lt_compat; apply: Hpos. }
    rewrite (big_nth (0, 0)) big_mkord. set T := \sum_(i < _) _.
    have HT: Rle 0 T by apply: sumR_ge0 => i _; apply: Hterm.
    split.
    - apply: Rmult_le_pos; last lra. apply: Rmult_le_pos; first lra. apply: Rmult_le_pos => //. by apply: Rlt_le; apply: Rinv_0_lt_compat.
    - have E1: (252 * (T / INR (size ds)) * 100)%re = 0 <-> T = 0.
      { split=> [E|->]; last by toR; field; lra. have : (T * (25200 / INR (size ds)))%re = 0 by rewrite -E; field; lra.
        move=> /Rmult_integral [//|H]. exfalso. have : (0 < 25200 / INR (size ds))%re by apply: Rmult_lt_0_compat; [lra|apply: Rinv_0_lt_compat]. rewrite H. toR. lra. }
      rewrite E1; split=> [E k Hk|E].
      + have Hk': (k < size ds)%N by rewrite Hsz; lia.
        have := sumR_eq0 (fun i : 'I_(size ds) => Hterm i (ltn_ord i)) E (Ordinal Hk') => /= /Rmult_integral [H|H].
        * have Hk2: (k < (size ws).-1)%N by lia. move: H; rewrite Hnth //= => /l1_eq0 /eqP. by rewrite subr_eq0 => /eqP.
        * exfalso. have := Rinv_0_lt_compat _ (Hpos _ Hk'). rewrite H. toR. lra.
      + rewrite /T big1 // => i _. have Hi: (i < (size ws).-1)%N by rewrite -Hsz.
        rewrite Hnth //= E; last by rewrite -ltn_predRL. rewrite subrr. have ->: l1 (0 : vec) = 0 by apply/l1_eq0. by rewrite /Rdiv Rmult_0_l.
  Qed.

  Lemma turnover_formula (ws : seq vec) : (2 <= size ws)%N -> (forall w, w \in ws -> w != 0) ->
    turnover ws = Some (25200 * (\sum_(k < (size ws).-1) (l1 (nth 0 ws k.+1 - nth 0 ws k)%R / l1 (nth 0 ws k)%R)%re)%R / INR (size ws).-1)%re.
  Proof.
    move=> Hs Hw. rewrite /turnover. set ds := zip _ _.
    have Hsz: size ds = (size ws).-1 by rewrite /ds size_zip size_behead size_takel ?leq_pred // minnn.
    have Hnth k : (k < (size ws).-1)%N -> nth (0, 0) ds k = (nth 0 ws k.+1, nth 0 ws k).
    { move=> Hk. rewrite /ds nth_zip ?size_behead ?size_takel ?leq_pred // nth_behead nth_take //. }
    have ->: (ds == [::]) = false by apply/negbTE/eqP => E; move: Hsz; rewrite E /=; lia.
    have ->: has (fun w : vec => l1 w == 0) (take (size ws).-1 ws) = false.
    { apply/negbTE/hasPn => w Hwin. apply/eqP => /l1_eq0 E. have := Hw w (mem_take Hwin). by rewrite E eqxx. }
    rewrite /= (big_nth (0, 0)) big_mkord Hsz. congr Some.
    set T := \sum_(i < _) _. set T' := \sum_(i < _) _. have ->: T = T'.
    { apply: eq_bigr => k _. by rewrite Hnth. }
    rewrite /Rdiv. ring.
  Qed.
End Turn.

Section Mse.
  Context (n : nat).
  Notation mat := 'M[R]_n.
  Lemma fro2_ge0 (M : mat) : Rle 0 (fro2 M).
  Proof. apply: sumR_ge0 => i _. apply: sumR_ge0 => j _. exact: Rle_0_sqr. Qed.
  Lemma fro2_eq0 (M : mat) : fro2 M = 0 <-> M = 0.
  Proof.
    split=> [E|->]; last by rewrite /fro2 big1 // => i _; rewrite big1 // => j _; rewrite mxE mul0r.
    have H1 i : Rle 0 (\sum_j M i j * M i j) by apply: sumR_ge0 => j _; exact: Rle_0_sqr.
    apply/matrixP => i j. rewrite mxE. have H2 := sumR_eq0 H1 E i.
    have := sumR_eq0 (fun j => Rle_0_sqr (M i j)) H2 j. exact: Rsqr_0_uniq.
  Qed.
  Lemma mse_ok (ts : seq Z) (rows : seq nrow) (items : seq (nat * mat)) :
    List.NoDup ts -> size ts = size rows -> (forall q, List.In q items -> (q.1 < size ts)%N) ->
    mse (zip ts rows) [seq (nth Z0 ts q.1, q.2) | q <- items] =
    Ok [seq (nth Z0 ts q.1, omap (fun r : 'cV[R]_n => fro2 (q.2 - r *m r^T)) (nvec n (next_row n rows q.1))) | q <- items].
  Proof.
    move=> Hnd Hs. rewrite /mse. elim: items => [//|[k S] items IH] Hit /=.
    rewrite shift_get //=; last exact: (Hit (k, S) (or_introl erefl)).
    rewrite IH //. by move=> q Hq; apply: Hit; right.
  Qed.
  Lemma mse_unknown (ts : seq Z) (rows : seq nrow) t (S : mat) rest : size ts = size rows -> ~ List.In t ts -> 
    mse (zip ts rows) ((t, S) :: rest) = Raise KeyError.
  Proof.
    move=> Hs Hin. rewrite /mse /=. have ->: dict_get Z.eqb (shift_up n (zip ts rows)) t = None; last by [].
    apply/dict_get_none. rewrite /shift_up. change (@List.map (Z * nrow) Z fst) with (@map (Z * nrow) Z fst).
    have ->: map fst (zip ts rows) = ts by rewrite -/unzip1 unzip1_zip // Hs.
    have ->: map snd (zip ts rows) = rows by rewrite -/unzip2 unzip2_zip // Hs.
    move=> H. apply: Hin. move: (rcons _ _) H => u. elim: ts u {Hs} => [|a ts IH] [|b u] //= [->|H]; [by left|right; exact: IH H].
  Qed.
End Mse.

Section Realized.
  Context (n : nat).
  Notation vec := 'cV[R]_n.
  Implicit Type rows : seq vec.
  Lemma sum_const (x : vec) rows : \sum_(r <- rows) x = INR (size rows) *: x.
  Proof.
    elim: rows => [|a rows IH]; first by rewrite big_nil scale0r. rewrite big_cons IH.
    change (size (a :: rows)) with (size rows).+1. rewrite S_INR. change (INR (size rows) + 1)%re with (INR (size rows) + 1)%R. by rewrite scalerDl scale1r addrC.
  Qed.
  Lemma mean_sum rows : rows <> [::] -> \sum_(r <- rows) r = INR (size rows) *: colmean rows.
  Proof.
    move=> Hne. rewrite /colmean scalerA. have H: INR (size rows) <> R0 by apply: not_0_INR; case: (rows) Hne.
    have ->: INR (size rows) * (/ INR (size rows))%re = 1 by toR; eqR; field. by rewrite scale1r.
  Qed.
  Lemma realized_cov_eq rows : rows <> [::] ->
    realized_covariance rows = \sum_(r <- rows) (r *m r^T) - INR (size rows) *: (colmean rows *m (colmean rows)^T).
  Proof.
    move=> Hne. rewrite /realized_covariance /cov0 scalerA.
    have H: INR (size rows) <> R0 by apply: not_0_INR; case: (rows) Hne.
    have ->: INR (size rows) * (/ INR (size rows))%re = 1 by toR; eqR; field. rewrite scale1r.
    have Hm := mean_sum Hne. move: (colmean rows) Hm => m Hm.
    rewrite (eq_bigr (fun r => r *m r^T - r *m m^T - m *m r^T + m *m m^T)); last first.
    { move=> r _. rewrite trB mulmxBl !mulmxBr opprB addrA. rewrite -!addrA; congr (_ + _); congr (_ + _). by rewrite addrC. }
    rewrite big_split /= !sumrB -mulmx_suml -mulmx_sumr.
    have ->: \sum_(i <- rows) i^T = (\sum_(i <- rows) i)^T by rewrite raddf_sum.
    rewrite Hm trZ -scalemxAl -scalemxAr.
    have ->: \sum_(i <- rows) (m *m m^T) = INR (size rows) *: (m *m m^T).
    { rewrite -mulmx_sumr. have ->: \sum_(i <- rows) m^T = (\sum_(i <- rows) m)^T by rewrite raddf_sum. by rewrite sum_const trZ -scalemxAr. }
    by rewrite addrNK.
  Qed.
  Lemma realized_vola_sq rows i : rows <> [::] ->
    (realized_vola rows i ord0 * realized_vola rows i ord0)%re =
    (realized_covariance rows i i + INR (size rows) * (colmean rows i ord0 * colmean rows i ord0))%re.
  Proof.
    move=> Hne. rewrite realized_cov_eq // /realized_vola mxE sqrt_sqrt; last first.
    { elim: (rows) => [|a l IH]; first by rewrite big_nil; apply: Rle_refl. rewrite big_cons. apply: Rplus_le_le_0_compat => //. exact: Rle_0_sqr. }
    rewrite subE scaleE. have ->: (colmean rows *m (colmean rows)^T) i i = colmean rows i ord0 * colmean rows i ord0 by rewrite mxE big_ord1 !mxE.
    have ->: (\sum_(r <- rows) r *m r^T) i i = \sum_(r <- rows) (r i ord0 * r i ord0)%re.
    { rewrite summxE. apply: eq_bigr => r _. by rewrite mxE big_ord1 !mxE. }
    have Hf (s m q : R) : s = (s - q * (m * m) + q * (m * m))%re by ring. exact: Hf.
  Qed.
  Lemma realized_psd rows : rows <> [::] -> psd (realized_covariance rows).
  Proof.
    move=> Hne. rewrite /realized_covariance /cov0 scalerA.
    have H: INR (size rows) <> R0 by apply: not_0_INR; case: (rows) Hne.
    have ->: INR (size rows) * (/ INR (size rows))%re = 1 by toR; eqR; field. rewrite scale1r.
    elim/big_ind: _ => [|A B|r _]; [exact: psd0|exact: psdD|exact: outer_psd].
  Qed.
End Realized.

Lemma mse_sum n (ts : seq Z) (rows : seq nrow) (items : seq (nat * 'M[R]_n)) :
  List.NoDup ts -> size ts = size rows -> (forall q, List.In q items -> (q.1 < size ts)%N) ->
  mse (zip ts rows) [seq (nth Z0 ts q.1, q.2) | q <- items] =
  Ok [seq (nth Z0 ts q.1, omap (fun r : 'cV[R]_n => \sum_i \sum_j (((q.2 : 'M[R]_n) i j - r i ord0 * r j ord0) ^+ 2))
                               (nvec n (next_row n rows q.1))) | q <- items].
Proof.
  move=> H1 H2 H3. rewrite mse_ok //; congr Ok. apply: eq_map => q. congr (_, _). case: (nvec n _) => [r|//] /=; congr Some.
  rewrite /fro2. apply: eq_bigr => i _; apply: eq_bigr => j _. by rewrite !mxE big_ord1 !mxE expr2.
Qed.
