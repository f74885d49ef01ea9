(** * ReturnCombinator.fit as a whole. *)
From Coq Require Import Reals Lra ZArith String List Lia.
Set Warnings "-notation-overridden,-ambiguous-paths".
From mathcomp Require Import all_ssreflect all_algebra.
From Verif Require Import RStruct MatR Num Py ListFacts Spec Combination CombPerm CombFacts Trader TraderOpt TraderBt TraderMain BacktestProps RetComb SpecRet RetEwm RetRidge RetFit.
Set Implicit Arguments.
Unset Strict Implicit.
Unset Printing Implicit Defensive.
Import GRing.Theory.
Local Open Scope ring_scope.
Delimit Scope R_scope with re.
Delimit Scope Z_scope with z.

Section Fit.
  Context (K : nat).
  Notation vec := 'cV[R]_K.
  Implicit Types (cols : seq (string * seq R)) (preds : seq (seq Z * seq vec)).
  Notation nocol := (""%string, [::] : seq R).
  Notation nopred := ([::] : seq Z, [::] : seq vec).

  Definition cells idx cols times preds m alpha : res (seq (seq vec)) :=
    mapM (fun t => mapM (fun i => cell idx (col_at cols i) times (nth nopred preds i).2 m alpha t) (iota 0 (size cols))) (iota m (size times - m)).
  Lemma In_nth_size A (d : A) l i : (i < size l)%N -> List.In (nth d l i) l.
  Proof. move=> H. apply/(In_nthP d). by exists i. Qed.
  Lemma nth_errorE A (d : A) l i : (i < size l)%N -> List.nth_error l i = Some (nth d l i).
  Proof. elim: l i => [//|a l IH] [|i] //= H. exact: IH. Qed.
  Lemma fit_eq idx cols times preds m alpha : good_data idx cols times preds -> (0 < m)%N ->
    fit idx cols preds m alpha =
    do W <- cells idx cols times preds m alpha;
    Ok (drop m times,
        [seq ((nth nocol cols i).1, [seq forecast (pred_at preds i (m + j)) (nth 0 (nth [::] W j) i) | j <- iota 0 (size W)]) | i <- iota 0 (size cols)],
        [seq [seq nth 0 Wj i | Wj <- W] | i <- iota 0 (size cols)]).
  Proof.
    move=> [Hi [Ht [Hc [Hp [Hn [H0 Hsub]]]]]] Hm. rewrite /fit. case Ep : preds H0 => [//|p0 ps] _. rewrite -Ep.
    have Hin0 : List.In p0 preds by rewrite Ep; left. have [E0 _] := Hp _ Hin0. rewrite E0.
    have -> : mapM (fun p : seq Z * seq vec => if size times != size p.1 then Raise ValueError else if seqb_Z times p.1 then Ok tt else Raise AssertionError) preds
              = Ok (map (fun _ => tt) preds).
    { have : forall p, List.In p preds -> p.1 = times by move=> p /Hp []. elim: preds {Hp Hn Ep Hin0} => //= p l IH H. rewrite H; last by left.
      rewrite eqxx (proj2 (seqb_ZP times times)) //= IH // => q Hq. apply: H. by right. }
    rewrite /=. have -> : all (fun t => mem_Z t idx) times.
    { elim: times Hsub {Hp Ht E0} => //= t l IH H. rewrite IH; last by move=> u Hu; apply: H; right. rewrite andbT. apply/mem_ZP. apply: H. by left. }
    have -> : increasing_b times by apply/inc_bP. have -> : increasing_b idx by apply/inc_bP. rewrite /= Hn eqxx /=.
    have Ez : zip (iota 0 (size preds)) cols = [seq (i, nth nocol cols i) | i <- iota 0 (size preds)].
    { apply: (@eq_from_nth _ (0%N, nocol)); first by rewrite size_zip size_map size_iota Hn minnn. rewrite size_zip size_iota Hn minnn => i Hi'.
      by rewrite nth_zip ?size_iota // (nth_map 0%N) ?size_iota // nth_iota. }
    rewrite Ez. set W1 := mapM _ (iota m _). have -> : W1 = cells idx cols times preds m alpha.
    { rewrite /W1 /cells Hn. apply: mapM_ext_in => t Hin. rewrite mapM_map. apply: mapM_ext_in => i Hin'.
      have [j Hj Ej] : exists2 j, (j < size preds)%N & i = j. { move/(In_nthP 0%N): Hin' => [j]. rewrite size_iota => Hj ->. exists j => //. by rewrite nth_iota. }
      rewrite Ej. rewrite /= (nth_errorE nopred) //= /cell. have [E1 _] := Hp _ (In_nth_size nopred Hj). rewrite E1.
      have Ht0 : (0 < t)%N. { move/(In_nthP 0%N): Hin => [k]. rewrite size_iota => Hk ->. rewrite nth_iota //. exact: leq_trans (leq_addr _ _). }
      by case: t Ht0 {Hin}. }
    case: (cells _ _ _ _ _ _) => //= W. congr (Ok (_, _, _)). rewrite -map_comp. have Hlt : forall i, i \in iota 0 (size preds) -> (i < size preds)%N by move=> i; rewrite mem_iota.
    apply/eq_in_map => i /Hlt Hi' /=. congr (_, _). apply: eq_map => j. by rewrite /dotp /forecast /pred_at (set_nth_default p0).
  Qed.

  Section Result.
    Context (idx : seq Z) (cols : seq (string * seq R)) (times : seq Z) (preds : seq (seq Z * seq vec)) (m : nat) (alpha : R).
    Hypothesis (Hg : good_data idx cols times preds) (Hm : (0 < m)%N).
    Let y i s := return_at idx (col_at cols i) (nth Z0 times s).
    Let x i := pred_at preds i.
    Notation cell_i := (fun i => cell idx (col_at cols i) times (nth nopred preds i).2 m alpha).
    Lemma fit_cells out : fit idx cols preds m alpha = Ok out ->
      out.1.1 = drop m times /\ map fst out.1.2 = map fst cols /\ size out.2 = size cols /\
      forall i t, (i < size cols)%N -> (m <= t < size times)%N ->
        cell_i i t = Ok (nth 0 (nth [::] out.2 i) (t - m)) /\
        nth 0 (col_at out.1.2 i) (t - m) = forecast (x i t) (nth 0 (nth [::] out.2 i) (t - m)) /\
        size (nth [::] out.2 i) = (size times - m)%N /\ size (col_at out.1.2 i) = (size times - m)%N.
    Proof.
      rewrite (fit_eq _ Hg Hm). case E : (cells _ _ _ _ _ _) => [W|//] /= [] <- /=. have [Hs Hn] := mapM_nth E. rewrite size_iota in Hs Hn.
      split=> //. split.
      { rewrite -map_comp. apply: (@eq_from_nth _ ""%string); first by rewrite !size_map size_iota. rewrite size_map size_iota => i Hi.
        by rewrite (nth_map 0%N) ?size_iota // nth_iota // (nth_map nocol). }
      rewrite size_map size_iota. split=> // i t Hi /andP [H1 H2]. have Ht : (t - m < size times - m)%N by lia.
      have := Hn _ 0%N [::] Ht. rewrite nth_iota // subnKC // => Hr. have [Hs2 Hn2] := mapM_nth Hr. rewrite size_iota in Hs2 Hn2.
      have := Hn2 _ 0%N 0 Hi. rewrite nth_iota // add0n => Hc. rewrite (nth_map 0%N) ?size_iota // nth_iota // add0n (nth_map [::]) ?Hs //.
      split=> //. rewrite /col_at (nth_map 0%N) ?size_iota // nth_iota // add0n /= (nth_map 0%N) ?size_iota ?Hs // nth_iota ?Hs // add0n subnKC // !size_map size_iota.
      by split.
    Qed.
    Let hc i : (i < size cols)%N -> size (col_at cols i) = size idx.
    Proof. move=> Hi. case: Hg => _ [_ [H _]]. apply: H. exact: In_nth_size. Qed.
    Let hx i : (i < size cols)%N -> size (nth nopred preds i).2 = size times.
    Proof. move=> Hi. case: Hg => _ [_ [_ [H [E _]]]]. rewrite E in Hi. have [] := H _ (In_nth_size nopred Hi). by []. Qed.
    Lemma fit_min out : (0 <= alpha)%re -> fit idx cols preds m alpha = Ok out ->
      forall i t, (i < size cols)%N -> (m <= t < size times)%N -> unique_minimiser (ridge_loss m alpha (y i) (x i) t) (nth 0 (nth [::] out.2 i) (t - m)).
    Proof.
      move=> Ha Hf i t Hi /andP [H1 H2]. have [_ [_ [_ H]]] := fit_cells Hf. have [|Hc _] := H i t Hi; first by rewrite H1.
      case: (Hg) => Hii [Hti [_ [_ [_ [_ Hsub]]]]]. exact: (cell_min Hii Hti (hc Hi) (hx Hi) Hsub Hm Ha H1 H2 Hc).
    Qed.
    (** what the weights are, for every sign of alpha *)
    Lemma fit_weights out : fit idx cols preds m alpha = Ok out ->
      forall i t, (i < size cols)%N -> (m <= t < size times)%N ->
        get_weights (days (y i) t m) (days (x i) t m) (scale_vec (x i) t) alpha = Ok (nth 0 (nth [::] out.2 i) (t - m)).
    Proof.
      move=> Hf i t Hi /andP [H1 H2]. have [_ [_ [_ H]]] := fit_cells Hf. have [|Hc _] := H i t Hi; first by rewrite H1.
      case: (Hg) => Hii [Hti [_ [_ [_ [_ Hsub]]]]]. exact: (cell_Ok Hii Hti (hc Hi) (hx Hi) Hsub Hm H1 H2 Hc).
    Qed.
    Lemma cell_total t i : (0 < alpha)%re -> (i < size cols)%N -> (forall k, exists2 s, (s < m)%N & x i s k 0 <> 0) -> aligned idx times ->
      (m <= t < size times)%N -> exists w, cell_i i t = Ok w.
    Proof.
      move=> Ha Hi Hk Hal /andP [H1 H2]. case: (Hg) => Hii [Hti [_ [_ [_ [_ Hsub]]]]].
      rewrite (cell_aligned alpha Hii Hti (hc Hi) (hx Hi) Hsub Hm Hal H1 H2) gwE. set A := Amx _ _ _. have -> : A \in unitmx; last by eexists.
      apply: spd_unit. apply: Amx_spd => //; first exact: obs_pos. move=> k. rewrite mxE. apply: ms_gt0. have [s Hs Hx] := Hk k. exists s => //.
      exact: leq_trans Hs H1.
    Qed.
    Lemma fit_total : (0 < alpha)%re -> (forall i, (i < size cols)%N -> forall k, exists2 s, (s < m)%N & x i s k 0 <> 0) -> aligned idx times ->
      exists out, fit idx cols preds m alpha = Ok out.
    Proof.
      move=> Ha Hk Hal. rewrite (fit_eq _ Hg Hm) /cells. have [|W ->] := @mapM_ok _ _ (fun t => mapM (fun i => cell_i i t) (iota 0 (size cols))) (iota m (size times - m)).
      - move=> j t0. rewrite size_iota => Hj. rewrite nth_iota //. apply: mapM_ok => i i0. rewrite size_iota => Hi. rewrite nth_iota // add0n.
        apply: cell_total => //; [exact: Hk|lia].
      - by eexists.
    Qed.
    (** a date of the returns that the predictors do not have *)
    Lemma gw_Ok t i : (0 < alpha)%re -> (forall k, exists2 s, (s < m)%N & x i s k 0 <> 0) -> (m <= t)%N ->
      exists w, get_weights (days (y i) t m) (days (x i) t m) (scale_vec (x i) t) alpha = Ok w.
    Proof.
      move=> Ha Hk H1. rewrite gwE. set A := Amx _ _ _. have -> : A \in unitmx; last by eexists.
      apply: spd_unit. apply: Amx_spd => //; first exact: obs_pos. move=> k. rewrite mxE. apply: ms_gt0. have [s Hs Hx] := Hk k. exists s => //.
      exact: leq_trans Hs H1.
    Qed.
    Lemma fit_misaligned : (0 < alpha)%re -> (forall i, (i < size cols)%N -> forall k, exists2 s, (s < m)%N & x i s k 0 <> 0) ->
      (1 < m)%N -> (m < size times)%N -> ~ aligned idx times -> fit idx cols preds m alpha = Raise ValueError.
    Proof.
      move=> Ha Hk Hm1 HT Hal. case: (Hg) => Hii [Hti [_ [_ [Hn [H0 Hsub]]]]].
      have Hcase t i : (i < size cols)%N -> (m <= t < size times)%N ->
        (between idx times (t - m) t.-1 = window times (t - m) m /\ exists w, cell_i i t = Ok w) \/ (between idx times (t - m) t.-1 <> window times (t - m) m /\ cell_i i t = Raise ValueError).
      { move=> Hi /andP [H1 H2]. have [[E1 E2]|H] := cell_cases alpha Hii Hti (hc Hi) (hx Hi) Hsub Hm H1 H2; last by right.
        left. split=> //. rewrite E2. exact: gw_Ok (Hk i Hi) H1. }
      have [t Ht Hb] : exists2 t, (m <= t < size times)%N & between idx times (t - m) t.-1 <> window times (t - m) m.
      { apply: Classical_Prop.NNPP => Hno. apply: Hal => u s Hu Hs Hlo Hhi.
        have [k [Hks [Hk1 Hk2]]] : exists k, (k < s.+1)%N /\ (nth Z0 times k <= u)%z /\ ((k < s)%N -> (u < nth Z0 times k.+1)%z).
        { elim: s Hs Hhi => [|s IH] Hs Hhi; first by exists 0%N. case: (Z.le_gt_cases u (nth Z0 times s)) => H.
          - have [k [A [B C]]] := IH (ltnW Hs) H. exists k. split; first exact: ltnW. split=> // _. move: A. rewrite ltnS leq_eqVlt => /orP [/eqP E|]; last exact: C.
            subst k. apply: Z.le_lt_trans H _. by apply: inc_nth_lt => //; apply: ltnW.
          - case: (Z.le_gt_cases (nth Z0 times s.+1) u) => H2; first by exists s.+1; rewrite ltnn. exists s. split=> //. split; [lia|by []]. }
        case: (Z.eq_dec u (nth Z0 times k)) => [->|Hne]; first by apply: In_nth_size; lia.
        have Hks' : (k < s)%N. { move: Hks. rewrite ltnS leq_eqVlt => /orP [/eqP E|//]. subst k. lia. }
        have {}Hk2 := Hk2 Hks'. exfalso. apply: Hno. exists (maxn m k.+2); first by rewrite leq_maxl gtn_max HT; lia.
        move=> E. have : List.In u (between idx times (maxn m k.+2 - m) (maxn m k.+2).-1).
        { apply/In_filter. split=> //. have Hx1 := leq_maxl m k.+2. have Hx2 := leq_maxr m k.+2. have Hx3 : (maxn m k.+2 < size times)%N by rewrite gtn_max HT; lia.
          have Hx4 : (maxn m k.+2 - m <= k)%N by rewrite /maxn; case: ifP => _; lia.
          apply/andP; split; apply/Z.leb_le.
          - apply: Z.le_trans Hk1. apply: inc_nth_le => //. lia.
          - apply: Z.lt_le_incl. apply: Z.lt_le_trans Hk2 _. apply: inc_nth_le => //; lia. }
        have Hw : (maxn m k.+2 - m + m <= size times)%N by rewrite subnK ?leq_maxl // geq_max ltnW //; lia.
        rewrite E => /(window_In _ Hw) [j /andP [_ Hj] Ej]. have {}Hj := leq_trans Hj Hw. case: (leqP j k) => Hjk.
        - have := inc_nth_le Hti Hjk. rewrite -Ej => H. have := H (ltn_trans Hks' (ltnW Hs)). lia.
        - have := inc_nth_le Hti Hjk Hj. rewrite -Ej. lia. }
      have Hr : forall t, (m <= t < size times)%N ->
        (exists r, mapM (fun i => cell_i i t) (iota 0 (size cols)) = Ok r) /\ between idx times (t - m) t.-1 = window times (t - m) m \/
        mapM (fun i => cell_i i t) (iota 0 (size cols)) = Raise ValueError.
      { move=> t' Ht'. case Er : (mapM _ _) => [r|ex].
        - left. split; first by eexists. have Hc0 : (0 < size cols)%N by rewrite Hn; case: (preds) H0.
          have [[] //|[_ E]] := Hcase t' 0%N Hc0 Ht'. have [_ Hnth] := mapM_nth Er. have := Hnth 0%N 0%N 0. rewrite size_iota nth_iota // => /(_ Hc0). by rewrite add0n E.
        - right. have [i [Hi Hx]] := mapM_raise Er. rewrite size_iota in Hi. have := Hx 0%N. rewrite nth_iota // add0n. have [[_ [w ->]]//|[_ ->] [] <-//] := Hcase t' i Hi Ht'. }
      rewrite (fit_eq _ Hg Hm) /cells. case E : (mapM _ _) => [W|ex] /=.
      - have [_ Hnth] := mapM_nth E. have Hj : (t - m < size times - m)%N by lia. have := Hnth (t - m)%N 0%N [::]. rewrite size_iota nth_iota // subnKC; last by case/andP: Ht.
        move=> /(_ Hj) Ew. have [[_ /Hb //]|] := Hr t Ht. by rewrite Ew.
      - have [j [Hj Hx]] := mapM_raise E. rewrite size_iota in Hj. have := Hx 0%N. rewrite nth_iota //. have [|[[r ->] _]//|-> [] <- //] := Hr (m + j)%N. lia.
    Qed.
  End Result.
End Fit.
