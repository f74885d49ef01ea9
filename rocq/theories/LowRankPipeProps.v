(** * low_rank_iterated_ewma against iterated_ewma. *)
From Coq Require Import Reals ZArith String List Lia Lra Psatz.
Set Warnings "-notation-overridden,-ambiguous-paths".
From mathcomp Require Import all_ssreflect all_algebra.
From Verif Require Import RStruct MatR Num Py ListFacts Spec Ewma EwmaTot EwmaPrefix XRFacts EwmaReal EwmaTab EwmaFin EwmaProps EwmaProps2 EwmaProps3 EwmaClosed
  Combination Regularization SpecReg RegProps SpecEwma LowRankEwma SpecLowRank LowRankProps LowRankStages LowRankPipe CombReal.
Set Implicit Arguments.
Unset Strict Implicit.
Unset Printing Implicit Defensive.
Import GRing.Theory.
Local Open Scope ring_scope.
Delimit Scope R_scope with re.

Lemma len_size (T : Type) (l : seq T) : length l = size l.
Proof. by elim: l => //= a l ->. Qed.

Section Generic.
  Context (n k : nat).
  Implicit Types (eigsh : eigsh_t n k).

  Lemma nth_error_drop (T : Type) (s : seq T) m q : List.nth_error (drop m s) q = List.nth_error s (m + q).
  Proof. elim: m s => [|m IH] [|a s] //=; by destruct q. Qed.

  Lemma lr_loop_size eigsh b rows : forall m st, (lr_loop eigsh b m st rows).2 = None -> size (lr_loop eigsh b m st rows).1 = size rows.
  Proof.
    elim: rows => [|row rows IH] m st //=. case: (lr_step _ _ _ _ _) => [st1|e] //= H. by rewrite IH.
  Qed.
  Lemma lr_loop_size_le eigsh b rows : forall m st, (size (lr_loop eigsh b m st rows).1 <= size rows)%N.
  Proof.
    elim: rows => [|row rows IH] m st //=. case: (lr_step _ _ _ _ _) => [st1|e] //=. by apply: IH.
  Qed.
  Lemma general_size eigsh rows h : (general_low_rank eigsh rows h).2 = None -> size (general_low_rank eigsh rows h).1 = size rows.
  Proof.
    rewrite /general_low_rank. case: h => [h|//]. case: Req_EM_T => // Hh. case: rows => [//|y0 rows]. case: eqP => // _ /= H.
    by rewrite lr_loop_size.
  Qed.
  Lemma general_size_le eigsh rows h : (size (general_low_rank eigsh rows h).1 <= size rows)%N.
  Proof.
    rewrite /general_low_rank. case: h => [h|//]. case: Req_EM_T => // Hh. case: rows => [//|y0 rows]. case: eqP => // _ /=.
    exact: lr_loop_size_le.
  Qed.
  Lemma items_time eigsh ts rows h mp p t st : size ts = size rows ->
    List.nth_error (ewma_low_rank eigsh ts rows h mp).1 p = Some (t, st) -> t = nth Z0 ts (mp.-1 + p) /\ (mp.-1 + p < size ts)%N.
  Proof.
    move=> Hs. rewrite /ewma_low_rank /=. case: eqP => _; first by case: p.
    rewrite nth_error_drop. move: (mp.-1 + p)%N (general_low_rank eigsh rows h).1 => q l. clear Hs rows h eigsh.
    elim: q ts l => [|q IH] [|a ts] [|b l] //=; first by case=> ->. move=> /IH [-> H]. by split.
  Qed.
  Lemma items_size eigsh ts rows h mp : (0 < n)%N -> size ts = size rows -> (ewma_low_rank eigsh ts rows h mp).2 = None ->
    size (ewma_low_rank eigsh ts rows h mp).1 = (size ts - mp.-1)%N.
  Proof.
    move=> Hn Hs. rewrite /ewma_low_rank /=. move=> /general_size Hg. have -> : (n == 0)%N = false by apply/negbTE; lia.
    by rewrite size_drop size_zip Hg Hs minnn.
  Qed.

  (** The loop, when every look-up succeeds. *)
  Lemma yield_items P fr sts e m0 (V M : nat -> seq xr) (W : nat -> 'cV[R]_n) :
    (forall p t (st : factors n k), List.nth_error sts p = Some (t, st) ->
       lr_vola_mean P fr t = Ok (V (m0 + p)%N, M (m0 + p)%N) /\ real_row n (V (m0 + p)%N) = Some (W (m0 + p)%N)) ->
    (lr_yield P fr sts e).2 = e /\ size (lr_yield P fr sts e).1 = size sts /\
    forall p, List.nth_error (lr_yield P fr sts e).1 p =
      omap (fun q => LrItem q.1 (M (m0 + p)%N) (scale_low_rank (W (m0 + p)%N) q.2) (V (m0 + p)%N)) (List.nth_error sts p).
  Proof.
    elim: sts m0 => [|[t st] sts IH] m0 H /=; first by split=> //; split=> //; case.
    have [Hv Hr] := H 0%N t st erefl. rewrite addn0 in Hv Hr. rewrite Hv Hr /=.
    have H' p t' (st' : factors n k) : List.nth_error sts p = Some (t', st') ->
       lr_vola_mean P fr t' = Ok (V (m0.+1 + p)%N, M (m0.+1 + p)%N) /\ real_row n (V (m0.+1 + p)%N) = Some (W (m0.+1 + p)%N).
      rewrite addSn -addnS => Hp. exact: (H p.+1 t' st' Hp).
    have [H1 [H2 H3]] := IH m0.+1 H'.
    split=> //. split; first by rewrite H2. case=> [|p] /=; first by rewrite addn0. by rewrite H3 addnS -addSn.
  Qed.
End Generic.

Lemma real_row_fin n (g : nat -> R) : real_row n (List.map (fun j => Fin (g j)) (List.seq 0 n)) = Some (\col_(i < n) g i).
Proof.
  rewrite /real_row. have Hs : size (List.map (fun j => Fin (g j)) (List.seq 0 n)) = n.
    by rewrite -len_size List.map_length List.seq_length.
  rewrite Hs eqxx. have -> : all is_fin (List.map (fun j => Fin (g j)) (List.seq 0 n)) by elim: (List.seq 0 n) => //=.
  congr Some. apply/matrixP => i j. rewrite !mxE -nth_same. 
  rewrite (nth_map_lt _ _ _ 0%N) ?List.seq_length; last exact/ltP. by rewrite nth_seq0 //; apply/ltP.
Qed.

(** Rescaling a low-rank state and what it leaves out. *)
Section Scale.
  Context (n k : nat).
  Lemma psd_congr (D E : 'M[R]_n) : psd E -> psd (D^T *m E *m D).
  Proof.
    move=> [Hs Hq]. split; first by rewrite /sym !trmx_mul trmxK Hs mulmxA.
    move=> x. rewrite /qf. have := Hq (D *m x). by rewrite /qf trmx_mul !mulmxA.
  Qed.
  Lemma scale_split (vola : 'cV[R]_n) (F : 'M[R]_(n, k)) (d : 'cV[R]_n) F' d' (M E : 'M[R]_n) :
    scale_low_rank vola (F, d) = Some (F', d') -> (forall i, factor_model F d i i = M i i) ->
    psd E -> M = F *m F^T + E -> (forall i, d i 0 = E i i) ->
    exists E', psd E' /\ (forall i, d' i 0 = E' i i) /\ (E = 0 -> E' = 0 /\ d' = 0) /\
      forall i j, (F' *m F'^T + E') i j = (vola i 0%R * (M i j / (sqrt (M i i) * sqrt (M j j))) * vola j 0%R)%re.
  Proof.
    rewrite /scale_low_rank. case: ifP => // /forallP Hp [HF Hd'] HM HE HME Hd. rewrite /= in HF Hd' Hp.
    pose v := \col_i rcp (sqrt (M i i)) : 'cV[R]_n.
    have HG i : get_diagonal F d i 0 = M i i by rewrite -HM fm_diag mxE.
    have Hpos i : (0 < M i i)%re by have := Hp i; rewrite HG; case: Rlt_dec.
    pose D := diag_mx (\row_i (vola i 0 * v i 0)) : 'M[R]_n.
    have HDt : D^T = D by rewrite tr_diag_mx.
    have HF' : F' = D *m F.
      rewrite -HF. apply/matrixP => i a. rewrite mul_diag_mx !mxE.
      have := HG i. rewrite mxE => ->. by rewrite mulrA.
    have HDE : forall i j, (D^T *m E *m D) i j = vola i 0 * v i 0 * E i j * (vola j 0 * v j 0).
      move=> i j. by rewrite HDt mul_mx_diag mul_diag_mx !mxE.
    exists (D^T *m E *m D). split; [exact: psd_congr|split; [|split]].
    - move=> i. rewrite HDE -Hd -Hd' !mxE. have := HG i. rewrite mxE => ->. Rring.
    - move=> HE0. split; first by rewrite HE0 mulmx0 mul0mx. apply/matrixP => i j. rewrite ord1 -Hd' !mxE Hd HE0 mxE. Rring.
    - move=> i j. have -> : F' *m F'^T + D^T *m E *m D = D *m M *m D.
        by rewrite HME HF' trmx_mul HDt mulmxDr mulmxDl !mulmxA.
      rewrite mul_mx_diag mul_diag_mx !mxE. have Hi := sqrt_lt_R0 _ (Hpos i). have Hj := sqrt_lt_R0 _ (Hpos j).
      move: (sqrt (M i i)) (sqrt (M j j)) Hi Hj => u w Hu Hw. rewrite /rcp. toR. eqR. move: (vola i _) (vola j _) (M i j) => a b c. field. lra.
  Qed.
End Scale.

Section Main.
  Variables (P : params (N := XR)) (f : frame (N := XR) time) (x : nat -> nat -> R) (hv hc h1 h2 : R) (rc : option R).
  Hypothesis HS : settings P hv hc h1 h2 rc.
  Hypothesis Hf : valid_returns f.
  Hypothesis Hx : returns_are false f x.
  Let n := length (fcols f).
  Let T := length (findex f).
  Let fp := first_pos (min_periods_vola P).
  Hypothesis Hmv : forall j, (j < n)%coq_nat -> exists s, (s <= fp)%coq_nat /\ centred (use_mean P) h1 x j s <> IZR 0.
  Hypothesis HT : (fp < T)%coq_nat.
  Let a := pa P hv h1 h2 rc (findex f) (fcols f) x.
  Let item := pitem P hv hc h1 h2 rc (findex f) (fcols f) x.
  Let V j i := pv P hv h1 rc x j (kpos P hv h1 rc (findex f) (fcols f) x i).
  Let mp := min_periods_cov P.

  (** The standardised rows as vectors. *)
  Definition std_rows : seq 'cV[R]_n := [seq (\col_(j < n) a j i) | i <- List.seq 0 (T - fp)].
  Lemma std_rows_size : size std_rows = (T - fp)%N.
  Proof. by rewrite size_map -len_size List.seq_length. Qed.
  Lemma std_rows_nth i : (i < T - fp)%N -> nth 0 std_rows i = \col_(j < n) a j i.
  Proof.
    move=> Hi. rewrite (nth_map 0%N); last by rewrite -len_size List.seq_length. congr (\matrix_(_, _) a _ _).
    rewrite -nth_same List.seq_nth //. exact/ltP.
  Qed.
  Let times := List.skipn fp (findex f).
  Lemma times_size : size times = (T - fp)%N.
  Proof. by rewrite -len_size List.skipn_length. Qed.

  Lemma real_rows_tabl (u : nat -> nat -> R) (l : seq nat) :
    real_rows n (List.map (trow n (fun j i => Fin (u j i))) l) = Some [seq (\col_(j < n) u j i) | i <- l].
  Proof. elim: l => [//|i l IH] /=. by rewrite {1}/trow (real_row_fin n (fun j => u j i)) IH. Qed.

  Section Run.
    Context (k : nat) (eigsh : eigsh_t n k).
    Let g := low_rank_iterated_ewma eigsh P f.
    Let gs := ewma_low_rank eigsh times std_rows (Some hc) mp.

    Lemma pipe_run : g.2 = gs.2 /\ size g.1 = size gs.1 /\
      forall p, List.nth_error g.1 p =
        omap (fun q => LrItem q.1 (imean (item (mp.-1 + p))) (scale_low_rank (\col_(j < n) V j (mp.-1 + p)) q.2) (ivol (item (mp.-1 + p)))) (List.nth_error gs.1 p).
    Proof.
      have [fr [E1 [E2 [E3 E4]]]] := @stages_ok P f x hv hc h1 h2 rc HS Hf Hx Hmv HT.
      have Eg : g = lr_yield P fr gs.1 gs.2.
        rewrite /g /low_rank_iterated_ewma E1 E3 /tabl (real_rows_tabl (pa P hv h1 h2 rc (findex f) (fcols f) x)) E2.
        by case: (proj1 (proj2 HS)) => -> _.
      rewrite Eg. apply: (@yield_items n k P fr gs.1 gs.2 mp.-1 (fun i => ivol (item i)) (fun i => imean (item i)) (fun i => \col_(j < n) V j i)) => p t st Hp.
      have [-> Hlt] := items_time (etrans times_size (esym std_rows_size)) Hp. rewrite times_size in Hlt.
      rewrite -nth_same nth_skipn_z. split.
      - apply: E4. apply/ltP. exact: Hlt.
      - by rewrite /item /pitem /= (real_row_fin n (fun j => V j (mp.-1 + p)%N)).
    Qed.
    Lemma outs_nth outs p : iterated_ewma P f = Ok outs -> (mp.-1 + p < T - fp)%N -> List.nth_error outs p = Some (item (mp.-1 + p)).
    Proof.
      rewrite (iter_items P f x hv hc h1 h2 rc HS Hf Hx Hmv HT) => -[<-] Hp.
      rewrite List.nth_error_map (List.nth_error_nth' _ 0%N) ?List.seq_length; last by rewrite /T /fp /mp in Hp *; lia.
      rewrite List.seq_nth /=; last by rewrite /T /fp /mp in Hp *; lia. congr (Some (item _)). rewrite /mp. lia.
    Qed.
    Lemma outs_size outs : iterated_ewma P f = Ok outs -> size outs = (T - fp - mp.-1)%N.
    Proof.
      rewrite (iter_items P f x hv hc h1 h2 rc HS Hf Hx Hmv HT) => -[<-]. rewrite -len_size List.map_length List.seq_length /mp /T /fp. lia.
    Qed.
    Lemma moment_pc i : (i < T - fp)%N ->
      ew_moment hc (fun s => nth 0 std_rows s) i = \matrix_(p, q) pc P hv hc h1 h2 rc (findex f) (fcols f) x i p q.
    Proof.
      move=> Hi. apply/matrixP => p q. rewrite !mxE /pc. apply: ewavg_ext => s /leP Hs.
      have Hs' : (s < T - fp)%N by apply: leq_ltn_trans Hs Hi. by rewrite std_rows_nth // !mxE.
    Qed.

    (** Item by item the generator agrees with iterated_ewma. *)
    Lemma agree outs p it : eigsh_ok eigsh -> iterated_ewma P f = Ok outs -> List.nth_error g.1 p = Some it ->
      exists o, List.nth_error outs p = Some o /\ l_time it = itime o /\ l_mean it = imean o /\ l_vol it = ivol o /\
        match l_cov it with
        | Some (F, d) =>
            exists E, psd E /\ (forall i, d i 0 = E i i) /\ (forall i j : 'I_n, cov_at o i j = Fin ((F *m F^T + E)%R i j)) /\
              ((mp.-1 + p < k)%N -> E = 0)
        | None => exists i : 'I_n, cov_at o i i = NaN
        end.
    Proof.
      move=> Hok HO. have [_ [_ H]] := pipe_run. rewrite H. case Hst: (List.nth_error gs.1 p) => [[t [F d]]|//] /= [<-].
      have [Ht Hlt] := items_time (etrans times_size (esym std_rows_size)) Hst. rewrite times_size in Hlt.
      exists (item (mp.-1 + p)). split; first exact: outs_nth. cbn [l_time l_mean l_vol l_cov].
      have Hh : Rlt 0 hc by case: (proj1 (proj2 HS)).
      split; first by rewrite Ht -nth_same nth_skipn_z; symmetry; apply: (item_time P f x hv hc h1 h2 rc HS Hf Hmv HT); apply/ltP.
      split=> //. split=> //.
      have [_ [Hd [E [HE [HM HdE]]]]] := run_items Hok Hh Hst.
      set i := (mp.-1 + p)%N in Hlt Hd HM *. rewrite (moment_pc Hlt) in Hd HM.
      set M := (\matrix_(p, q) _) in Hd HM.
      have Hcov (r q : 'I_n) : cov_at (item i) r q = pcov P hv hc h1 h2 rc (findex f) (fcols f) x i r q.
        by apply: cov_at_pitem; apply/ltP.
      have HMe r q : M r q = pc P hv hc h1 h2 rc (findex f) (fcols f) x i r q by rewrite mxE.
      case Hsc: (scale_low_rank _ _) => [[F' d']|].
      - have Hpos r : Rlt 0 (M r r).
          have := proj1 (scale_some (\col_(j < n) V j i) (F, d)); rewrite Hsc => /(_ _) Hp.
          rewrite -(proj2 (Hd r)). exact: Hp.
        have [E' [HE' [Hd' [H0 Hc]]]] := scale_split Hsc (fun r => proj2 (Hd r)) HE HM HdE.
        exists E'. split=> //. split=> //. split.
        + move=> r q. rewrite Hcov Hc !mxE /pcov. have := Hpos r; have := Hpos q. rewrite !HMe => Hq Hr.
          case: Req_EM_T => Z1; first by (exfalso; move: Hr; rewrite Z1; apply: Rlt_irrefl).
          case: Req_EM_T => Z2; first by (exfalso; move: Hq; rewrite Z2; apply: Rlt_irrefl). by [].
        + move=> Hk. apply H0. have [HFM Hd0] := run_exact Hok Hh Hst Hk. rewrite (moment_pc Hlt) -/M in HFM.
          move: HM. rewrite HFM => /eqP. by rewrite -subr_eq0 opprD addrA subrr add0r oppr_eq0 => /eqP.
      - have : ~ forall r, Rlt 0 (factor_model F d r r).
          move=> Hp. have := proj2 (scale_some (\col_(j < n) V j i) (F, d)) Hp. by rewrite Hsc.
        move=> Hn. have [r Hr] : exists r, ~ Rlt 0 (M r r).
          apply: Classical_Prop.NNPP => Hne. apply: Hn => r. rewrite (proj2 (Hd r)). apply: Classical_Prop.NNPP => Hr. apply: Hne. by exists r.
        exists r. rewrite Hcov /pcov. case: Req_EM_T => // Z1. exfalso. apply: Hr. rewrite HMe.
        have := pc_nonneg P hv hc h1 h2 rc (settings_usable _ _ _ _ _ _ HS) (findex f) (fcols f) x i r. lra.
    Qed.
    Lemma agree_count outs : iterated_ewma P f = Ok outs -> (size g.1 <= size outs)%N /\ (g.2 = None -> size g.1 = size outs).
    Proof.
      move=> HO. rewrite (outs_size HO). have [H1 [H2 _]] := pipe_run. rewrite H1 H2. split.
      - rewrite /gs /ewma_low_rank /=. case: eqP => _ //. rewrite size_drop size_zip times_size. apply: leq_sub2r. exact: geq_minl.
      - move=> He. have Hn : (0 < n)%N by apply/ltP; exact: (n_pos P f x hv h1 rc Hf Hmv HT).
        by rewrite (items_size Hn (etrans times_size (esym std_rows_size)) He) times_size.
    Qed.
    Lemma complete : (0 < k < n)%N -> eigsh_total eigsh ->
      let y := centred (use_mean P) h1 x in
      let v := fun j s => sqrt (winsor_var hv (min_periods_vola P) rc (y j) s) in
      let z := fun j s => standardised rc (y j (fp + s)%N) (v j (fp + s)%N) in
      (forall j i, (j < n)%N -> (0 < i < T - fp)%N -> centred (use_mean P) h2 z j i <> IZR 0) -> g.2 = None.
    Proof.
      move=> Hk Ht y v z Hnz. have [-> _] := pipe_run. have Hh : Rlt 0 hc by case: (proj1 (proj2 HS)).
      rewrite /gs. have Hsz := std_rows_size. case Er: std_rows Hsz => [|y0 rows] /= Hsz; first by (exfalso; rewrite /T /fp in Hsz; lia).
      have Hts : size times = (size rows).+1 by rewrite times_size.
      have := @items_total n k eigsh times y0 rows hc mp Hh Hk Ht Hts. case=> // row j Hrow.
      have Hi := Hrow. rewrite -index_mem in Hi. have Hi1 : ((index row rows).+1 < T - fp)%N by rewrite -Hsz.
      have := std_rows_nth Hi1. rewrite Er /= (nth_index _ Hrow) => ->. rewrite mxE /a.
      rewrite (@adj_closed P f x hv hc h1 h2 rc HS Hf Hmv HT (index row rows).+1 j); last exact/ltP.
      apply/eqP. apply: Hnz => //.
    Qed.
  End Run.
End Main.
