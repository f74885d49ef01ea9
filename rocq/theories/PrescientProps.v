(** * Proofs about the evaluation cells. *)
From Coq Require Import Reals Lra List Lia.
Set Warnings "-notation-overridden,-ambiguous-paths".
From mathcomp Require Import all_ssreflect all_algebra.
From Verif Require Import RStruct MatR Num Py Combination ExpUtils SpecExp ExpLL ExpMain EmFacts CcpProps CcpOpt RetRidge Prescient SpecPrescient.
Set Implicit Arguments.
Unset Strict Implicit.
Unset Printing Implicit Defensive.
Import GRing.Theory.
Local Open Scope ring_scope.
Delimit Scope R_scope with re.

Lemma quarter_same (t u : date) : calendar t -> calendar u -> same_quarter t u = (d_year t == d_year u) && (d_quarter t == d_quarter u).
Proof.
rewrite /calendar /same_quarter /d_quarter /d_month => Ht Hu. congr andb.
move: t.1.2 u.1.2 Ht Hu => a b.
do 13 (case: a => [|a]; first by do 13 (case: b => [|b]; first by []); by []). by [].
Qed.

Section Value.
  Context (n : nat).
  Notation vec := 'cV[R]_n.
  Notation mat := 'M[R]_n.
  Implicit Types (rows : seq vec).

  Lemma INRn0 k : (0 < k)%N -> INR k <> 0%re.
  Proof. move=> H. apply: not_0_INR. by case: k H. Qed.
  Lemma mean_sum rows : (0 < size rows)%N -> INR (size rows) *: col_mean rows = \sum_(r <- rows) r.
  Proof. move=> H. rewrite /col_mean scalerA. have -> : (INR (size rows) * (/ INR (size rows))%re)%R = 1 by apply: Rinv_r; exact: INRn0. by rewrite scale1r. Qed.
  Lemma INR_natr k : (k%:R : R) = INR k.
  Proof. elim: k => [//|k IH]. by rewrite S_INR mulrS addrC IH. Qed.
  Lemma centre rows (m := col_mean rows) : (0 < size rows)%N ->
    \sum_(r <- rows) r *m r^T = \sum_(r <- rows) (r - m) *m (r - m)^T + INR (size rows) *: (m *m m^T).
  Proof.
  move=> H. have E : \sum_(r <- rows) (r - m) *m (r - m)^T = \sum_(r <- rows) r *m r^T - (\sum_(r <- rows) r) *m m^T - m *m (\sum_(r <- rows) r)^T + (size rows)%:R *: (m *m m^T).
    rewrite (big_morph trmx (@trD _ _) (trmx0 _ _ _)) mulmx_suml mulmx_sumr.
    elim: (rows) => [|r rs IH]; first by rewrite !big_nil scale0r subr0 subr0 addr0.
    rewrite !big_cons IH. rewrite trB mulmxBl !mulmxBr. rewrite [size _]/= mulrS scalerDl scale1r.
    set a := r *m r^T. set b := r *m m^T. set c := m *m r^T. set d := m *m m^T. 
    set A := \sum_(j <- rs) j *m j^T. set B := \sum_(j <- rs) j *m m^T. set C := \sum_(j <- rs) m *m j^T. set D := _ *: d.
    move: a b c d A B C D => a b c d A B C D. apply/matrixP => i j. rewrite !mxE.
    move: (a i j) (b i j) (c i j) (d i j) (A i j) (B i j) (C i j) (D i j) => a' b' c' d' A' B' C' D'. Rring.
  rewrite E. have Em : INR (size rows) *: m = \sum_(r <- rows) r := mean_sum H. clearbody m. rewrite INR_natr -Em trZ.
  rewrite -scalemxAl -scalemxAr. set X := INR _ *: _. by rewrite subrK subrK.
  Qed.

  Lemma qf_sum_seq (A : Type) (l : seq A) (f : A -> mat) x : qf (\sum_(r <- l) f r) x = \sum_(r <- l) qf (f r) x.
  Proof. elim: l => [|a l IH]; first by rewrite !big_nil /qf mulmx0 mul0mx mxE. by rewrite !big_cons qfD IH. Qed.
  Lemma qf_rr (r : vec) x : qf (r *m r^T) x = (x^T *m r) 0 0 * (x^T *m r) 0 0.
  Proof.
  rewrite /qf mulmxA -mulmxA. have -> : r^T *m x = (x^T *m r)^T by rewrite trmx_mul trmxK.
  by rewrite mxE big_ord1 [((_)^T) 0 0]mxE.
  Qed.
  Lemma sum_sq_ge0 (A : Type) (l : seq A) (f : A -> R) : (0 <= \sum_(r <- l) f r * f r)%re.
  Proof.
  elim: l => [|a l IH]; first by rewrite big_nil; exact: Rle_refl. rewrite big_cons. apply: Rplus_le_le_0_compat => //. exact: Rle_0_sqr.
  Qed.
  Lemma sum_sq_eq0 (A : eqType) (l : seq A) (f : A -> R) : \sum_(r <- l) f r * f r = 0 -> forall r, r \in l -> f r = 0.
  Proof.
  elim: l => [//|a l IH]. rewrite big_cons => E. have H1 : (0 <= f a * f a)%re := Rle_0_sqr (f a). have H2 := sum_sq_ge0 l f.
  have [Ea El] : (f a * f a)%re = 0%re /\ \sum_(r <- l) f r * f r = 0.
    move: E H1 H2. set X := (f a * f a)%re. set Y := \sum_(r <- l) _. move=> E H1 H2. have E' : (X + Y)%re = 0%re by exact: E. split; [|change (Y = 0%re)]; lra.
  move=> r. rewrite in_cons => /orP[/eqP->|]; last exact: IH. case: (Rmult_integral _ _ Ea) => ->; by [].
  Qed.
  Lemma sm_qf rows x : qf (second_moment rows) x = ((/ INR (size rows)) * \sum_(r <- rows) (x^T *m r) 0 0 * (x^T *m r) 0 0)%re.
  Proof. rewrite /second_moment qfZ qf_sum_seq. congr (_ * _)%re. apply: eq_bigr => r _. exact: qf_rr. Qed.
  Lemma sumT (A : Type) (l : seq A) (f : A -> vec) : (\sum_(r <- l) f r *m (f r)^T)^T = \sum_(r <- l) f r *m (f r)^T.
  Proof. rewrite (big_morph trmx (@trD _ _) (trmx0 _ _ _)). apply: eq_bigr => r _. by rewrite trmx_mul trmxK. Qed.
  Lemma invN_ge0 k : (0 <= / INR k)%re.
  Proof. case: k => [|k]; first by rewrite Rinv_0; exact: Rle_refl. apply/Rlt_le/Rinv_0_lt_compat. apply: lt_0_INR. lia. Qed.
  Lemma sm_psd rows : psd (second_moment rows).
  Proof.
  split; first by rewrite /sym trZ sumT. move=> x. rewrite sm_qf. apply: Rmult_le_pos; [exact: invN_ge0|exact: sum_sq_ge0].
  Qed.
  Lemma cm_psd rows : psd (centred_moment rows).
  Proof.
  split; first by rewrite /sym trZ sumT. move=> x. rewrite /centred_moment qfZ qf_sum_seq. apply: Rmult_le_pos; first exact: invN_ge0.
  under eq_bigr do rewrite qf_rr. exact: sum_sq_ge0.
  Qed.

  Lemma valueE rows : (1 < size rows)%N -> np_cov rows + col_mean rows *m (col_mean rows)^T = inflated_moment rows.
  Proof.
  move=> H. have H0 : (0 < size rows)%N by exact: leq_trans H. rewrite /inflated_moment /second_moment (centre H0) /centred_moment -/(col_mean rows) /np_cov.
  set m := col_mean rows. set C := \sum_(r <- rows) _. set N := INR _. have HN : (1 < N)%re by rewrite /N -[1%re]/(INR 1); apply: lt_INR; apply/ltP.
  rewrite scalerDr !scalerA. have -> : ((/ N)%re * N)%R = 1 by apply: Rinv_l; lra. rewrite scale1r addrAC -scalerDl.
  congr (_ *: _ + _). change ((/ (N - 1)) = / N + / (N - 1) * / N)%re. field. lra.
  Qed.
  Lemma rows_size rows : (1 < size rows)%N -> (0 < / (INR (size rows) - 1))%re.
  Proof. move=> H. apply: Rinv_0_lt_compat. have : (1 < INR (size rows))%re by rewrite -[1%re]/(INR 1); apply: lt_INR; apply/ltP. lra. Qed.
  Lemma value_psd rows : (1 < size rows)%N -> psd (inflated_moment rows).
  Proof.
  move=> H. have [S1 Q1] := sm_psd rows. have [S2 Q2] := cm_psd rows. split; first by rewrite /sym /inflated_moment trD S1 trZ S2.
  move=> x. rewrite qfD qfZ. apply: Rplus_le_le_0_compat => //. apply: Rmult_le_pos => //. exact/Rlt_le/rows_size.
  Qed.
  (* positive definite iff the rows span the space *)
  Lemma sm_spd rows : (0 < size rows)%N -> spd (second_moment rows) <-> spanning rows.
  Proof.
  move=> H. have Hi : (0 < / INR (size rows))%re by apply: Rinv_0_lt_compat; apply: lt_0_INR; apply/ltP.
  split.
    move=> [_ Hp] x Hx. apply/eqP/negPn/negP => /Hp. rewrite sm_qf. rewrite big_seq big1; last by move=> r /Hx->; exact: Rmult_0_l.
    by rewrite Rmult_0_r => /Rlt_irrefl.
  move=> Hs. have [S1 Q1] := sm_psd rows. split=> // x Hx. case: (Rle_lt_or_eq_dec _ _ (Q1 x)) => // E. case/eqP: Hx. apply: Hs.
  apply: (sum_sq_eq0 (f := fun r : vec => (x^T *m r) 0 0)). move: E. rewrite sm_qf => E. have := Rmult_integral _ _ (esym E). case=> // E2. by move: Hi; rewrite E2 => /Rlt_irrefl.
  Qed.
  Lemma value_spd rows : (1 < size rows)%N -> spd (inflated_moment rows) <-> spanning rows.
  Proof.
  move=> H. have H0 : (0 < size rows)%N by exact: leq_trans H. rewrite -(sm_spd H0). have [S1 Q1] := cm_psd rows. have Hc := rows_size H. split.
  - move=> Hv. apply/(sm_spd H0) => x Hx. apply/eqP/negPn/negP => /(proj2 Hv). rewrite qfD qfZ sm_qf.
    rewrite big_seq big1; last by move=> r /Hx->; exact: Rmult_0_l. rewrite /centred_moment -/(col_mean rows) qfZ qf_sum_seq.
    have Em : (x^T *m col_mean rows) 0 0 = 0.
      rewrite /col_mean -scalemxAr mxE mulmx_sumr summxE big_seq big1 ?mulr0 //.
    rewrite [X in (_ * (_ * X))%R]big_seq big1; last first.
      move=> r Hr. rewrite qf_rr mulmxBr subE Em subr0 (Hx r Hr). exact: Rmult_0_l.
    rewrite Rmult_0_r !mulr0 add0r => H1. exact: Rlt_irrefl H1.
  - move=> [S2 Q2]. split; first by rewrite /sym /inflated_moment trD S2 trZ S1. move=> x Hx. rewrite qfD qfZ. apply: Rplus_lt_le_0_compat; first exact: Q2.
    apply: Rmult_le_pos => //. exact: Rlt_le.
  Qed.
  Lemma few_days rows : (size rows < n)%N -> ~ spanning rows.
  Proof.
  move=> H Hs. pose M : 'M[R]_(n, size rows) := \matrix_(i, j) (nth 0 rows j) i 0.
  have Hr : (\rank (kermx M) > 0)%N by rewrite mxrank_ker subn_gt0; apply: leq_ltn_trans H; exact: rank_leq_col.
  have /rowV0Pn[v Hv Hv0] : kermx M != 0 by rewrite -mxrank_eq0 -lt0n.
  case/negP: Hv0. apply/eqP. rewrite -[v]trmxK. rewrite (Hs v^T) ?trmx0 // => r Hr'. rewrite trmxK.
  move/sub_kermxP: Hv => Hv. have Hi : (index r rows < size rows)%N by rewrite index_mem.
  have := congr1 (fun A : 'M[R]_(1, size rows) => A 0 (Ordinal Hi)) Hv. rewrite [RHS]mxE => <-. rewrite !mxE. apply: eq_bigr => i _.
  by rewrite !mxE /= nth_index.
  Qed.
End Value.

Section Main.
  Context (n : nat).
  Notation vec := 'cV[R]_n.
  Notation mat := 'M[R]_n.
  Implicit Types (returns : seq (date * vec)).

  Lemma quarter_rowsE returns t : all (fun p => calendar p.1) returns -> calendar t -> quarter_rows returns t = rows_where (same_quarter t) returns.
  Proof.
  move=> Ha Ht. rewrite /quarter_rows /rows_where. congr map. elim: returns Ha => [//|p l IH] /= /andP[Hp Hl].
  rewrite IH // (quarter_same Ht Hp) [d_year p.1 == _]eq_sym [d_quarter p.1 == _]eq_sym. by [].
  Qed.
  Lemma prescient_value returns : all (fun p => calendar p.1) returns ->
    prescient returns = [seq (p.1, let rows := rows_where (same_quarter p.1) returns in
      if size rows == 1%N then None else Some (inflated_moment rows)) | p <- returns].
  Proof.
  move=> Ha. rewrite /prescient. apply/eq_in_map => p Hp. have Hc : calendar p.1 by move/allP: (Ha) => /(_ p Hp). rewrite (quarter_rowsE Ha Hc).
  have H0 : (0 < size (rows_where (same_quarter p.1) returns))%N.
    rewrite /rows_where size_map size_filter -has_count. apply/hasP. exists p => //. by rewrite (quarter_same Hc Hc) !eqxx.
  move: H0. set rows := rows_where _ _ => H0. rewrite /=. case: eqP => [->//|/eqP H1].
  have H2 : (1 < size rows)%N by rewrite ltn_neqAle eq_sym H1. by rewrite leqNgt H2 /= (valueE H2).
  Qed.
  Lemma same_quarter_trans (t u v : date) : calendar t -> calendar u -> calendar v -> same_quarter t u -> same_quarter t v = same_quarter u v.
  Proof. move=> Ht Hu Hv. rewrite !quarter_same //. by case/andP => /eqP-> /eqP->. Qed.
  Lemma prescient_constant returns k l (x0 : date * vec) : all (fun p => calendar p.1) returns -> (k < size returns)%N -> (l < size returns)%N ->
    same_quarter (nth x0 returns k).1 (nth x0 returns l).1 -> (nth (x0.1, None) (prescient returns) k).2 = (nth (x0.1, None) (prescient returns) l).2.
  Proof.
  move=> Ha Hk Hl Hq. rewrite (prescient_value Ha). rewrite !(nth_map x0) //=.
  have E : rows_where (same_quarter (nth x0 returns k).1) returns = rows_where (same_quarter (nth x0 returns l).1) returns.
    rewrite /rows_where. congr map. apply: eq_in_filter => p Hp. apply: same_quarter_trans => //; move/allP: Ha => Ha; [exact: Ha (mem_nth _ _)|exact: Ha (mem_nth _ _)|exact: Ha].
  by rewrite E.
  Qed.
End Main.

Section Scores.
  Context (n : nat).
  Notation vec := 'cV[R]_n.
  Notation mat := 'M[R]_n.
  Implicit Types (returns : seq (date * vec)) (predictor : seq (date * mat)).

  Lemma lookups returns (keys : seq date) (row : nat -> vec) : (forall k, (k < size keys)%N -> lookup returns (nth (0, 0, 0)%N keys k) = Some (row k)) ->
    mapM (fun t => or_raise (lookup returns t) KeyError) keys = Ok (mkseq row (size keys)).
  Proof.
  elim: keys row => [//|t keys IH] row H /=. have /= -> := H 0%N erefl. rewrite /= (IH (fun k => row k.+1)); last by move=> k Hk; exact: (H k.+1).
  congr Ok. rewrite /mkseq /= (iotaDl 1 0) -map_comp. by [].
  Qed.
  Lemma in_nth (A : Type) (l : seq A) x0 a : List.In a l -> exists2 k, (k < size l)%N & a = nth x0 l k.
  Proof. elim: l => [//|b l IH] /= [->|/IH[k Hk ->]]; [by exists 0%N|by exists k.+1]. Qed.
  Lemma scoresE returns predictor (row : nat -> vec) : (0 < size predictor)%N ->
    (forall k, (k < size predictor)%N -> lookup returns (nth ((0, 0, 0)%N, 0) predictor k).1 = Some (row k)) ->
    (forall k, (k.+1 < size predictor)%N -> spd (nth ((0, 0, 0)%N, 0) predictor k).2) ->
    scores returns predictor = Ok [seq ((nth ((0, 0, 0)%N, 0) predictor k.+1).1,
      Some (ln (normal_density 0 (nth ((0, 0, 0)%N, 0) predictor k).2 (row k.+1)))) | k <- iota 0 (size predictor).-1].
  Proof.
  move=> H0 Hr HS. rewrite /scores. rewrite (lookups (row := row)); last first.
    rewrite size_map => k Hk. rewrite (nth_map ((0, 0, 0)%N, 0)) //. exact: Hr.
  rewrite size_map /=. set Ss := take _ _. have Hsz : size Ss = (size predictor).-1 by rewrite size_take size_map; case: (predictor) H0 => //= a l _; rewrite ltnS leqnn.
  have Hrs : size (behead (mkseq row (size predictor))) = (size predictor).-1 by rewrite size_behead size_mkseq.
  have HSs : forall S, List.In S Ss -> spd S.
    move=> S /(in_nth (0 : mat))[k Hk ->]. rewrite Hsz in Hk. rewrite nth_take // (nth_map ((0, 0, 0)%N, 0)); last by apply: leq_trans Hk _; exact: leq_pred.
    apply: HS. by rewrite -ltn_predRL.
  have [ll [E [Hl Hv]]] := @ll_gauss n (behead (mkseq row (size predictor))) Ss None 1%re R1_neq_R0 (size_map _ _) (etrans Hsz (esym Hrs)) HSs.
  case Ep : predictor H0 => [//|p0 l] _. rewrite -Ep E /=. rewrite Hl size_behead size_mkseq size_behead size_map eqxx. congr Ok.
  set times := behead _. have Ht : size times = (size predictor).-1 by rewrite size_behead size_map.
  have Hll : size ll = (size predictor).-1 by rewrite Hl Hrs.
  apply: (@eq_from_nth _ ((0, 0, 0)%N, None)).
    by rewrite size_zip Ht Hll minnn size_map size_iota.
  move=> k. rewrite size_zip Ht Hll minnn => Hk.
  rewrite nth_zip; last by rewrite Ht Hll. rewrite (nth_map 0%N); last by rewrite size_iota.
  have Hk1 : (k.+1 < size predictor)%N by rewrite -ltn_predRL.
  rewrite nth_iota // add0n nth_behead (nth_map ((0, 0, 0)%N, 0)) //. congr (_, _).
  rewrite Hv ?Hrs // Rabs_R1 ln_1 Rmult_0_r Rminus_0_r. congr (Some (ln _)).
  have -> : nth 0 (means_or0 (behead (mkseq row (size predictor))) None) k = 0 :> vec.
    rewrite /means_or0. by rewrite (nth_map 0) // Hrs.
  rewrite nth_take // (nth_map ((0, 0, 0)%N, 0)); last exact: ltnW. by rewrite nth_behead nth_mkseq.
  Qed.
  Lemma scores_empty returns : scores returns [::] = Raise ValueError.
  Proof. by []. Qed.
  Lemma scores_key returns predictor k : (k < size predictor)%N -> lookup returns (nth ((0, 0, 0)%N, 0) predictor k).1 = None ->
    scores returns predictor = Raise KeyError.
  Proof.
  rewrite /scores => Hk Hn. suff -> : mapM (fun t => or_raise (lookup returns t) KeyError) [seq p.1 | p <- predictor] = Raise KeyError by [].
  elim: predictor k Hk Hn => [//|p l IH] [|k] /= Hk Hn; first by rewrite Hn.
  case: (lookup returns p.1) => [v|] //=. by rewrite (IH k).
  Qed.
  Lemma scores_singular returns predictor (row : nat -> vec) k :
    (forall k, (k < size predictor)%N -> lookup returns (nth ((0, 0, 0)%N, 0) predictor k).1 = Some (row k)) ->
    (k.+1 < size predictor)%N -> (nth ((0, 0, 0)%N, 0) predictor k).2 \notin unitmx -> scores returns predictor = Raise LinAlgError.
  Proof.
  move=> Hr Hk Hu. rewrite /scores. rewrite (lookups (row := row)); last first.
    rewrite size_map => i Hi. rewrite (nth_map ((0, 0, 0)%N, 0)) //. exact: Hr.
  rewrite size_map /=. case Ep : predictor Hk => [//|p0 l] Hk. rewrite -Ep. set Ss := take _ _.
  suff -> : log_likelihood (behead (mkseq row (size predictor))) Ss None 1 = Raise LinAlgError by [].
  rewrite /log_likelihood size_map eqxx. case: ifP => // /allP Ha. case/negP: Hu.
  have := Ha ((1 ^ 2)%re *: (nth ((0, 0, 0)%N, 0) predictor k).2). rewrite (_ : (1 ^ 2)%re = 1); last by rewrite /= !Rmult_1_r. rewrite scale1r. rewrite Ep. apply.
  rewrite -Ep. apply/mapP. exists (nth ((0, 0, 0)%N, 0) predictor k).2; last by rewrite scale1r.
  have Hk' : (k < (size predictor).-1)%N by rewrite Ep; move: Hk; rewrite /= ltnS.
  apply/(nthP 0). exists k; first by rewrite size_take size_map Ep /= ltnS leqnn; move: Hk'; rewrite Ep.
  rewrite /Ss nth_take // (nth_map ((0, 0, 0)%N, 0)) //. by apply: leq_trans Hk' _; exact: leq_pred.
  Qed.
End Scores.

Section Best.
  Context (n : nat).
  Notation vec := 'cV[R]_n.
  Notation mat := 'M[R]_n.
  Implicit Types (rows : seq vec) (S : mat).

  Lemma qf_tr S (x : vec) : qf S x = \tr (S *m (x *m x^T)).
  Proof. by rewrite mulmxA mxtrace_mulC mulmxA /qf /mxtrace big_ord1. Qed.
  Lemma qf_rows S rows : (0 < size rows)%N -> \sum_(r <- rows) qf S r = INR (size rows) * \tr (S *m second_moment rows).
  Proof.
  move=> H. rewrite /second_moment -scalemxAr linearZ /= mulrA. have -> : (INR (size rows) * (/ INR (size rows))%re)%R = 1 by apply: Rinv_r; exact: INRn0.
  rewrite mul1r mulmx_sumr linear_sum /=. apply: eq_bigr => r _. exact: qf_tr.
  Qed.
  Lemma totalE S rows : spd S -> (0 < size rows)%N ->
    total S rows = (INR (size rows) * (- INR n / 2 * ln (2 * PI)) - INR (size rows) / 2 * (ln (\det S) + \tr (invmx S *m second_moment rows)))%re.
  Proof.
  move=> HS H. have HR := @qf_rows (invmx S) rows H.
  have -> : total S rows = (INR (size rows) * (- INR n / 2 * ln (2 * PI) - 1 / 2 * ln (\det S)) - 1 / 2 * \sum_(r <- rows) qf (invmx S) r)%re.
    rewrite /total. elim: (rows) => [|r l IH]; first by rewrite !big_nil [size _]/= [INR 0]/= [GRing.zero _]/=; toR; ring.
    rewrite !big_cons IH (density_ln _ _ (spd_det HS)) subr0 [size _]/= S_INR.
    move: (\sum_(j <- l) _) (qf _ _) (ln (\det S)) (ln _) (INR _) (INR _) => a b c d e f. toR. field.
  rewrite HR. move: (\tr _) => t. toR. field.
  Qed.
  Lemma best S rows : (0 < size rows)%N -> spd (second_moment rows) -> spd S ->
    (total S rows <= total (second_moment rows) rows)%re /\ (total S rows = total (second_moment rows) rows -> S = second_moment rows).
  Proof.
  move=> H HM HS. rewrite !totalE // (mulVmx (spd_unit HM)) mxtrace1 INR_natr.
  have HI := spd_inv HS. have H1 := logdet_tr2 HI HM. have H2 := logdet_tr2_eq HI HM. rewrite (CcpProps.lndet_inv HS) in H1 H2.
  have HN : (0 < INR (size rows))%re by apply: lt_0_INR; apply/ltP.
  split.
    apply: Rplus_le_compat_l. apply: Ropp_le_contravar. apply: Rmult_le_compat_l; first lra.
    move: H1. move: (ln _) (ln _) (\tr _) (INR n) => a b c d. toR. lra.
  move=> E. have E2 : (ln (\det S) + \tr (invmx S *m second_moment rows) = ln (\det (second_moment rows)) + INR n)%re.
    move: E HN. set a := (ln (\det S) + _)%re. set b := (ln _ + INR n)%re. set c := (INR (size rows) * _)%re. move: a b c (INR (size rows)) => a b c N E HN.
    apply: (Rmult_eq_reg_l (N / 2)); first by move: E; move: (N / 2 * a)%re (N / 2 * b)%re => u v; lra. lra.
  have E3 : invmx S *m second_moment rows = 1%:M by apply: H2; move: E2; move: (ln _) (ln _) (\tr _) (INR n) => a b c d; toR; lra.
  by rewrite -[RHS]mul1mx -(mulmxV (spd_unit HS)) -mulmxA E3 mulmx1.
  Qed.

  Lemma cm_eq0 rows : centred_moment rows = 0 -> (0 < size rows)%N -> forall r, r \in rows -> r = col_mean rows.
  Proof.
  move=> E H r Hr. apply/eqP. rewrite -subr_eq0. apply/eqP. set d := r - _.
  have : qf (centred_moment rows) d = 0 by rewrite E /qf mulmx0 mul0mx mxE. rewrite /centred_moment -/(col_mean rows) qfZ qf_sum_seq => E2.
  have Hi : (/ INR (size rows))%re <> 0%re by apply: Rinv_neq_0_compat; exact: INRn0. case: (Rmult_integral _ _ E2) => // E3.
  have E4 : \sum_(r0 <- rows) (d^T *m (r0 - col_mean rows)) 0 0 * (d^T *m (r0 - col_mean rows)) 0 0 = 0.
    rewrite -[RHS]E3. apply: eq_bigr => r' _. by rewrite qf_rr.
  have := sum_sq_eq0 (f := fun r0 : vec => (d^T *m (r0 - col_mean rows)) 0 0) E4 Hr. rewrite -/d => E5. exact: nsq_eq0.
  Qed.
  (* The PRESCIENT matrix is not the best constant on its own quarter unless all the returns are equal. *)
  Lemma not_best rows r1 r2 : r1 \in rows -> r2 \in rows -> r1 <> r2 -> spanning rows ->
    (total (inflated_moment rows) rows < total (second_moment rows) rows)%re.
  Proof.
  move=> H1 H2 Hne Hs. have H0 : (1 < size rows)%N.
    case: (rows) H1 H2 => [//|a [|b l]] //. rewrite !mem_seq1 => /eqP E1 /eqP E2. by case: Hne; rewrite E1 E2.
  have Hp : (0 < size rows)%N by exact: leq_trans H0. have [A B] := best Hp (proj2 (sm_spd Hp) Hs) (proj2 (value_spd H0) Hs).
  case: (Rle_lt_or_eq_dec _ _ A) => // E. have E2 := B E. case: Hne.
  have E3 : centred_moment rows = 0.
    move: E2. rewrite /inflated_moment => /eqP. rewrite -subr_eq0 addrAC subrr add0r scaler_eq0 => /orP[/eqP E4|/eqP//].
    have := rows_size H0. by rewrite E4 => /Rlt_irrefl.
  by rewrite (cm_eq0 E3 Hp H1) (cm_eq0 E3 Hp H2).
  Qed.
End Best.

Section Regret.
  Context (n : nat).
  Notation vec := 'cV[R]_n.
  Notation mat := 'M[R]_n.
  Implicit Types (returns : seq (date * vec)) (S P : mat).

  Lemma lookup_nth returns k (x0 : date * vec) : seq.uniq [seq r.1 | r <- returns] -> (k < size returns)%N -> lookup returns (nth x0 returns k).1 = Some (nth x0 returns k).2.
  Proof.
  elim: returns k => [//|[u a] l IH] [|k] /= /andP[Hu Hl] Hk; first by rewrite eqxx.
  case: eqP => [E|_]; last exact: IH. case/negP: Hu. rewrite E. apply/mapP. exists (nth x0 l k) => //. exact: mem_nth.
  Qed.
  (* constant prediction *)
  Lemma const_scores returns S : seq.uniq [seq r.1 | r <- returns] -> (0 < size returns)%N -> spd S ->
    scores returns [seq (r.1, S) | r <- returns] = Ok [seq (r.1, Some (ln (normal_density 0 S r.2))) | r <- behead returns].
  Proof.
  move=> Hu H0 HS. pose x0 : date * vec := ((0, 0, 0)%N, 0). rewrite (scoresE (row := fun k => (nth x0 returns k).2)); last 3 first.
  - by rewrite size_map.
  - move=> k. rewrite size_map => Hk. rewrite (nth_map x0) //=. exact: lookup_nth.
  - move=> k. rewrite size_map => Hk. rewrite (nth_map x0) //=. exact: ltnW.
  congr Ok. rewrite size_map -size_behead. apply: (@eq_from_nth _ ((0, 0, 0)%N, None)); first by rewrite !size_map size_iota.
  move=> k. rewrite size_map size_iota => Hk. have Hk1 : (k.+1 < size returns)%N by move: Hk; rewrite size_behead ltn_predRL.
  rewrite (nth_map 0%N) ?size_iota // nth_iota // add0n (nth_map x0) // (nth_map x0) //; last exact: ltnW.
  by rewrite (nth_map x0) // nth_behead.
  Qed.
  Lemma const_regret returns P S : seq.uniq [seq r.1 | r <- returns] -> (0 < size returns)%N -> spd P -> spd S ->
    exists lp ls reg, [/\ scores returns [seq (r.1, P) | r <- returns] = Ok lp, scores returns [seq (r.1, S) | r <- returns] = Ok ls,
      regret lp ls = Ok reg, all (fun p => p.2 != None) reg & series_sum reg = (total P [seq r.2 | r <- behead returns] - total S [seq r.2 | r <- behead returns])%re].
  Proof.
  move=> Hu H0 HP HS. do 3 eexists. split; [exact: const_scores|exact: const_scores| | |].
  - rewrite /regret -!map_comp (_ : (_ == _) = true) //. by apply/eqP/eq_map.
  - elim: (behead returns) => [//|r l IH] /=. exact: IH.
  - rewrite /total /series_sum !big_map. elim: (behead returns) => [|r l IH]; first by rewrite !big_nil; toR; ring.
    rewrite /= !big_cons /= IH. set a := ln _. set b := ln _. set c := (\sum_(j <- l) _). set d := (\sum_(j <- l) _). clearbody a b c d. toR. ring.
  Qed.
  Lemma hindsight returns P (rows := [seq r.2 | r <- behead returns]) : seq.uniq [seq r.1 | r <- returns] -> (1 < size returns)%N -> spd P -> spd (second_moment rows) ->
    exists lp ls reg, [/\ scores returns [seq (r.1, P) | r <- returns] = Ok lp, scores returns [seq (r.1, second_moment rows) | r <- returns] = Ok ls,
      regret lp ls = Ok reg, all (fun p => p.2 != None) reg & (series_sum reg <= 0)%re /\ (P <> second_moment rows -> (series_sum reg < 0)%re)].
  Proof.
  move=> Hu H1 HP HS. have [lp [ls [reg [E1 E2 E3 E4 E5]]]] := const_regret Hu (leq_trans (leqnSn 1) H1) HP HS.
  exists lp, ls, reg. split=> //. rewrite E5 -/rows. have Hz : (0 < size rows)%N by rewrite size_map size_behead; case: (returns) H1 => [|a []].
  have [A B] := best Hz HS HP. split; first lra. move=> Hne. case: (Rle_lt_or_eq_dec _ _ A) => [|/B//]. lra.
  Qed.
End Regret.

Section Change.
  Context (n : nat).
  Notation vec := 'cV[R]_n.
  Notation mat := 'M[R]_n.
  Implicit Types (returns : seq (date * vec)) (A S P : mat).

  Lemma change_spd A S : A \in unitmx -> spd S -> spd (A *m S *m A^T).
  Proof.
  move=> HA [H1 H2]. split; first by rewrite /sym !trmx_mul trmxK H1 mulmxA.
  move=> x Hx. rewrite -{1}[A]trmxK qf_congr. apply: H2. apply/eqP => E. case/eqP: Hx. apply: unit_inj E. by rewrite unitmx_tr.
  Qed.
  Lemma change_density A S x : A \in unitmx -> spd S -> ln (normal_density 0 (A *m S *m A^T) (A *m x)) = (ln (normal_density 0 S x) - ln (Rabs (\det A)))%re.
  Proof.
  move=> HA HS. have HS' := change_spd HA HS. rewrite !density_ln; [|exact: spd_det|exact: spd_det]. rewrite !subr0.
  have Hd : \det A <> 0%re by move=> E; move: HA; rewrite unitmxE E unitr0.
  have -> : qf (invmx (A *m S *m A^T)) (A *m x) = qf (invmx S) x.
    have E1 : A^T *m invmx (A *m S *m A^T) *m A = invmx S.
      have HAT : A^T \in unitmx by rewrite unitmx_tr. have HSu := spd_unit HS.
      have E0 : invmx (A *m S *m A^T) = invmx A^T *m invmx S *m invmx A.
        have HX := spd_unit HS'. apply: (can_inj (mulKmx HX)). rewrite (mulmxV HX). by rewrite !mulmxA (mulmxK HAT) (mulmxK HSu) (mulmxV HA).
      rewrite E0 !mulmxA (mulmxV HAT) mul1mx -mulmxA (mulVmx HA) mulmx1. by [].
    by rewrite -[RHS]/(qf (invmx S) x) -E1 qf_congr.
  have Hp : (0 < Rabs (\det A))%re by exact: Rabs_pos_lt.
  have -> : ln (\det (A *m S *m A^T)) = (ln (\det S) + 2 * ln (Rabs (\det A)))%re.
    rewrite !det_mulmx det_tr. have -> : ((\det A * \det S * \det A)%R = \det S * (Rabs (\det A) * Rabs (\det A)))%re.
      have -> : (Rabs (\det A) * Rabs (\det A) = \det A * \det A)%re by rewrite -Rabs_mult Rabs_pos_eq //; exact: Rle_0_sqr.
      clear. move: (\det A) (\det S) => a s. Rring.
    rewrite ln_mult; [|exact: spd_det|exact: Rmult_lt_0_compat]. rewrite ln_mult //. ring.
  move: (ln _) (ln _) (ln _) (qf _ _) (INR _) => a b c d e. lra.
  Qed.

  Lemma lookup_change A returns t : lookup (change_assets A returns) t = omap (mulmx A) (lookup returns t).
  Proof. elim: returns => [//|[u a] l IH] /=. by case: eqP. Qed.
  Lemma change_scores A returns (predictor : seq (date * mat)) (row : nat -> vec) : A \in unitmx -> (0 < size predictor)%N ->
    (forall k, (k < size predictor)%N -> lookup returns (nth ((0, 0, 0)%N, 0) predictor k).1 = Some (row k)) ->
    (forall k, (k.+1 < size predictor)%N -> spd (nth ((0, 0, 0)%N, 0) predictor k).2) ->
    exists l, scores returns predictor = Ok l /\
      scores (change_assets A returns) (change_cov A predictor) = Ok [seq (p.1, omap (fun s => s - ln (Rabs (\det A)))%re p.2) | p <- l].
  Proof.
  move=> HA H0 Hr HS. eexists. split; first exact: (scoresE H0 Hr HS). pose x0 : date * mat := ((0, 0, 0)%N, 0).
  have Hn k : (k < size predictor)%N -> nth x0 (change_cov A predictor) k = ((nth x0 predictor k).1, A *m (nth x0 predictor k).2 *m A^T).
    move=> Hk. by rewrite (nth_map x0).
  rewrite (scoresE (row := fun k => A *m row k)) ?size_map //.
  - congr Ok. rewrite -map_comp. apply/eq_in_map => k. rewrite mem_iota add0n => /andP[_ Hk].
    have Hk1 : (k.+1 < size predictor)%N by rewrite -ltn_predRL. rewrite !Hn //=; last exact: ltnW. congr (_, Some _). rewrite change_density //. exact: HS.
  - move=> k Hk. by rewrite Hn //= lookup_change (Hr k Hk).
  - move=> k Hk. rewrite Hn /=; last exact: ltnW. apply: change_spd => //. exact: HS.
  Qed.
  Lemma change_regret (lp ls : seq (date * option R)) (d : R) :
    regret [seq (p.1, omap (fun s => s - d)%re p.2) | p <- lp] [seq (p.1, omap (fun s => s - d)%re p.2) | p <- ls] = regret lp ls.
  Proof.
  rewrite /regret -!map_comp. rewrite (eq_map (f1 := fst \o _) (f2 := fst)) // (eq_map (f1 := fst \o _) (f2 := fst)) //. case: ifP => // _. congr Ok.
  elim: lp ls => [|[t [a|]] lp IH] [|[u [b|]] ls] //=; rewrite IH //. congr ((_, Some _) :: _). lra.
  Qed.
  Lemma sum_change (A : mat) (l : seq vec) : \sum_(r <- [seq A *m x | x <- l]) r = A *m \sum_(r <- l) r.
  Proof. by rewrite big_map mulmx_sumr. Qed.
  Lemma change_mean A (l : seq vec) : col_mean [seq A *m x | x <- l] = A *m col_mean l.
  Proof. by rewrite /col_mean size_map sum_change scalemxAr. Qed.
  Lemma change_np_cov A (l : seq vec) : np_cov [seq A *m x | x <- l] = A *m np_cov l *m A^T.
  Proof.
  have G (c : R) (M : mat) : A *m (c *: M) *m A^T = c *: (A *m M *m A^T) by rewrite -scalemxAr -scalemxAl.
  rewrite /np_cov size_map change_mean big_map G mulmx_sumr mulmx_suml. congr (_ *: _). apply: eq_bigr => r _.
  by rewrite -mulmxBr trmx_mul !mulmxA.
  Qed.
  Lemma change_quarter A returns t : quarter_rows (change_assets A returns) t = [seq A *m x | x <- quarter_rows returns t].
  Proof.
  rewrite /quarter_rows /change_assets. elim: returns => [//|p l IH] /=. case: ifP => //= _. by rewrite IH.
  Qed.
  Lemma change_prescient A returns : prescient (change_assets A returns) = [seq (p.1, omap (fun P => A *m P *m A^T) p.2) | p <- prescient returns].
  Proof.
  rewrite /prescient /change_assets -!map_comp. apply/eq_map => p /=. congr (_, _). rewrite -/(change_assets A returns) change_quarter size_map.
  case: ifP => //= _. rewrite change_np_cov change_mean trmx_mul mulmxDr mulmxDl. by rewrite !mulmxA.
  Qed.
End Change.

Section Scored.
  Context (n : nat).
  Notation vec := 'cV[R]_n.
  Notation mat := 'M[R]_n.
  Implicit Types (returns : seq (date * vec)) (preds : seq (date * mat)).

  Lemma scored returns preds (x0 : date * vec) : seq.uniq [seq r.1 | r <- returns] -> all (fun p => calendar p.1) returns -> (0 < size returns)%N ->
    [seq (p.1, Some p.2) | p <- preds] = prescient returns ->
    (forall k, (k.+1 < size returns)%N -> spanning (rows_where (same_quarter (nth x0 returns k).1) returns)) ->
    scores returns preds = Ok [seq ((nth x0 returns k.+1).1,
      Some (ln (normal_density 0 (inflated_moment (rows_where (same_quarter (nth x0 returns k).1) returns)) (nth x0 returns k.+1).2))) | k <- iota 0 (size returns).-1].
  Proof.
  move=> Hu Ha H0 E Hs. rewrite (prescient_value Ha) in E. pose y0 : date * mat := ((0, 0, 0)%N, 0).
  have Hz : size preds = size returns by rewrite -(size_map (fun p => (p.1, Some p.2)) preds) E size_map.
  have Hn k : (k < size returns)%N -> let rows := rows_where (same_quarter (nth x0 returns k).1) returns in
    (1 < size rows)%N /\ nth y0 preds k = ((nth x0 returns k).1, inflated_moment rows).
    move=> Hk rows. have := congr1 (fun l => nth ((0, 0, 0)%N, None) l k) E. rewrite (nth_map y0) ?Hz // (nth_map x0) //= -/rows.
    case: (nth y0 preds k) => t P /= [-> ]. case: eqP => // Hne [->]. split=> //.
    have : (0 < size rows)%N.
      rewrite /rows /rows_where size_map size_filter -has_count. apply/hasP. exists (nth x0 returns k); first exact: mem_nth.
      have Hc : calendar (nth x0 returns k).1 by move/allP: Ha => /(_ _ (mem_nth _ Hk)). by rewrite (quarter_same Hc Hc) !eqxx.
    by case: (size rows) Hne => [|[|]].
  rewrite (scoresE (row := fun k => (nth x0 returns k).2)) ?Hz //.
  - congr Ok. apply/eq_in_map => k. rewrite mem_iota add0n => /andP[_ Hk]. have Hk1 : (k.+1 < size returns)%N by rewrite -ltn_predRL.
    by rewrite (proj2 (Hn _ Hk1)) (proj2 (Hn _ (ltnW Hk1))).
  - move=> k Hk. rewrite (proj2 (Hn _ Hk)). exact: lookup_nth.
  - move=> k Hk. have [H1 ->] := Hn _ (ltnW Hk). apply/value_spd => //. exact: Hs.
  Qed.
  (* A quarter with fewer days than assets. *)
  Lemma scored_singular returns preds (x0 : date * vec) k : seq.uniq [seq r.1 | r <- returns] -> all (fun p => calendar p.1) returns ->
    [seq (p.1, Some p.2) | p <- preds] = prescient returns -> (k.+1 < size returns)%N -> (size (rows_where (same_quarter (nth x0 returns k).1) returns) < n)%N ->
    scores returns preds = Raise LinAlgError.
  Proof.
  move=> Hu Ha E Hk Hlt. rewrite (prescient_value Ha) in E. pose y0 : date * mat := ((0, 0, 0)%N, 0).
  have Hz : size preds = size returns by rewrite -(size_map (fun p => (p.1, Some p.2)) preds) E size_map.
  have Hn i : (i < size returns)%N -> (nth y0 preds i).1 = (nth x0 returns i).1.
    move=> Hi. have := congr1 (fun l => nth ((0, 0, 0)%N, None) l i) E. rewrite (nth_map y0) ?Hz // (nth_map x0) //=. by case.
  apply: (scores_singular (row := fun i => (nth x0 returns i).2) (k := k)); rewrite ?Hz //.
    move=> i Hi. rewrite Hn //. exact: lookup_nth.
  move: (Hlt). set rows := rows_where _ _ => Hlt'.
  have := congr1 (fun l => nth ((0, 0, 0)%N, None) l k) E. rewrite (nth_map y0) ?Hz; last exact: ltnW. rewrite (nth_map x0); last exact: ltnW. rewrite /= -/rows.
  case: eqP => [_ [] //|Hne] [_ ->].
  have H1 : (1 < size rows)%N.
    have : (0 < size rows)%N.
      rewrite /rows /rows_where size_map size_filter -has_count. apply/hasP. exists (nth x0 returns k); first exact: mem_nth (ltnW Hk).
      have Hc : calendar (nth x0 returns k).1 by move/allP: Ha => /(_ _ (mem_nth _ (ltnW Hk))). by rewrite (quarter_same Hc Hc) !eqxx.
    by case: (size rows) Hne => [|[|]].
  apply/negP => Hun. case: (few_days Hlt'). apply/(value_spd H1). exact: psd_unit_spd (value_psd H1) Hun.
  Qed.
End Scored.

Section Bundles.
  Context (n : nat).
  Lemma definite (rows : seq 'cV[R]_n) : (1 < size rows)%N ->
    [/\ psd (inflated_moment rows), spd (inflated_moment rows) <-> spanning rows & (size rows < n)%N -> ~ spd (inflated_moment rows)].
  Proof. move=> H. split; [exact: value_psd|exact: value_spd|]. move=> Hl /(value_spd H). exact: few_days. Qed.
  Lemma score_errors (returns : seq (date * 'cV[R]_n)) (predictor : seq (date * 'M[R]_n)) (x0 := ((0, 0, 0)%N, 0)) :
    [/\ scores returns [::] = Raise ValueError,
      forall k, (k < size predictor)%N -> lookup returns (nth x0 predictor k).1 = None -> scores returns predictor = Raise KeyError &
      forall (row : nat -> 'cV[R]_n) k, (forall k, (k < size predictor)%N -> lookup returns (nth x0 predictor k).1 = Some (row k)) ->
        (k.+1 < size predictor)%N -> (nth x0 predictor k).2 \notin unitmx -> scores returns predictor = Raise LinAlgError].
  Proof. split; [exact: scores_empty|move=> k; exact: scores_key|move=> row k; exact: scores_singular]. Qed.
End Bundles.
