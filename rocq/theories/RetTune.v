(** * tune_alpha. *)
From Coq Require Import Reals Lra ZArith String List Lia FunctionalExtensionality.
Set Warnings "-notation-overridden,-ambiguous-paths".
From mathcomp Require Import all_ssreflect all_algebra.
From Verif Require Import RStruct MatR Num Py ListFacts Spec Combination CombPerm CombFacts Trader TraderOpt TraderBt TraderMain BacktestProps RetComb SpecRet RetEwm RetRidge RetFit RetMain RetInv RetPred.
Set Implicit Arguments.
Unset Strict Implicit.
Unset Printing Implicit Defensive.
Import GRing.Theory.
Local Open Scope ring_scope.
Delimit Scope R_scope with re.
Delimit Scope Z_scope with z.

Section Table.
  Context (T n : nat).
  Implicit Types f g : 'I_T -> 'I_n -> R.
  (** a table as a list, row by row *)
  Definition places : seq ('I_T * 'I_n) := [seq (t, i) | t <- enum 'I_T, i <- enum 'I_n].
  Definition flat f : seq R := [seq f p.1 p.2 | p <- places].
  Lemma flat_size f : size (flat f) = (T * n)%N.
  Proof. by rewrite size_map /places size_allpairs !size_enum_ord. Qed.
  Lemma flat_sum f : \sum_(x <- flat f) x = \sum_t \sum_i f t i.
  Proof. rewrite big_map /places big_allpairs /= big_enum /=. apply: eq_bigr => t _. by rewrite big_enum. Qed.
  Lemma flat_mean f : rmean (flat f) = table_mean f.
  Proof. by rewrite /rmean flat_sum flat_size. Qed.
  Lemma zip_flat f g (h : R * R -> R) : [seq h p | p <- zip (flat f) (flat g)] = flat (fun t i => h (f t i, g t i)).
  Proof. rewrite /flat. elim: places => //= p l ->. by []. Qed.
  Lemma map_flat f (h : R -> R) : [seq h x | x <- flat f] = flat (fun t i => h (f t i)).
  Proof. by rewrite /flat -map_comp. Qed.
  Lemma rmse_flat f g : rmse (flat f) (flat g) = table_rmse f g.
  Proof. by rewrite /rmse zip_flat flat_mean. Qed.
  Lemma flat_cols (cols : seq (seq R)) : size cols = n -> flatten_cols cols T = flat (fun t i => nth 0 (nth [::] cols i) t).
  Proof.
    move=> Hn. rewrite /flatten_cols /flat /places map_allpairs. congr flatten. rewrite -val_enum_ord -map_comp. apply: eq_map => t /=.
    apply: (@eq_from_nth _ 0); first by rewrite [LHS]size_map [RHS]size_map -cardE card_ord. rewrite size_map => i Hi. rewrite (nth_map [::]) //. have Hi' : (i < n)%N by rewrite -Hn.
    rewrite (nth_map (Ordinal Hi')) ?size_enum_ord //. by rewrite nth_enum_ord.
  Qed.
  Section Corr.
    Context (f g : 'I_T -> 'I_n -> R).
    Hypothesis HN : (0 < T * n)%N.
    Notation N := (INR (T * n)).
    Lemma HNpos : (0 < N)%re.
    Proof. apply: lt_0_INR. exact/ltP. Qed.
    Definition dev h : seq R := [seq x - rmean (flat h) | x <- flat h].
    Lemma devE h : dev h = flat (fun t i => h t i - table_mean h).
    Proof. by rewrite /dev flat_mean map_flat. Qed.
    Lemma sum_mean h : \sum_(x <- flat h) x = N * table_mean h.
    Proof. have HN0 := HNpos. rewrite flat_sum /table_mean . have H (a : R) : a = (N * (a / N))%re by field; lra. exact: H. Qed.
    Lemma covE h1 h2 : \sum_(p <- zip (dev h1) (dev h2)) p.1 * p.2 = N * table_cov h1 h2.
    Proof.
      have -> : \sum_(p <- zip (dev h1) (dev h2)) p.1 * p.2 = \sum_(x <- [seq (p.1 * p.2) | p <- zip (dev h1) (dev h2)]) x by rewrite big_map.
      rewrite !devE (zip_flat _ _ (fun p => p.1 * p.2)). exact: sum_mean.
    Qed.
    Lemma varE h : \sum_(x <- dev h) x * x = N * table_cov h h.
    Proof. rewrite -covE. elim: (dev h) => [|x l IH]; rewrite /= ?big_nil // !big_cons IH. by []. Qed.
    Lemma cov_ge0 (h : 'I_T -> 'I_n -> R) : (0 <= table_cov h h)%re.
    Proof.
      have HN0 := HNpos. have : (0 <= N * table_cov h h)%re. { rewrite -mulE -varE. elim: (dev h) => [|x l IH]; rewrite ?big_nil ?big_cons; first exact: Rle_refl. apply: Rplus_le_le_0_compat => //. exact: Rle_0_sqr. }
      move: (table_cov h h) => v. nra.
    Qed.
    Lemma corr_flat : corrcoef (flat f) (flat g) = table_corr f g.
    Proof.
      have HN0 := HNpos. rewrite /corrcoef -!/(dev _) !varE covE /table_corr. have Z (h : 'I_T -> 'I_n -> R) : (N * table_cov h h == 0) = (if Req_EM_T (table_cov h h) 0 then true else false).
      { case: Req_EM_T => [H|H]; first by rewrite /= H mulr0 eqxx. apply/negbTE/eqP. toR. move=> E. apply: H. have := Rmult_integral _ _ E. case=> // E'. lra. }
      rewrite !Z. case: Req_EM_T => // Hf. case: Req_EM_T => // Hg. congr Some. have Hf0 : (0 < table_cov f f)%re by have := cov_ge0 f; lra. have Hg0 : (0 < table_cov g g)%re by have := cov_ge0 g; lra.
      rewrite !mulE (sqrt_mult N (table_cov f f)); [|lra|lra]. rewrite (sqrt_mult N (table_cov g g)); [|lra|lra]. have HsN := sqrt_lt_R0 _ HNpos. have Hsf := sqrt_lt_R0 _ Hf0. have Hsg := sqrt_lt_R0 _ Hg0.
      have EN := sqrt_sqrt N (Rlt_le _ _ HN0). rewrite -{1}EN. field. lra.
    Qed.
    Lemma corr_range c : table_corr f g = Some c -> (-1 <= c <= 1)%re.
    Proof.
      have HN0 := HNpos. rewrite /table_corr. case: Req_EM_T => // Hf. case: Req_EM_T => // Hg [] <-. have Hf0 : (0 < table_cov f f)%re by have := cov_ge0 f; lra. have Hg0 : (0 < table_cov g g)%re by have := cov_ge0 g; lra.
      have Hsf := sqrt_lt_R0 _ Hf0. have Hsg := sqrt_lt_R0 _ Hg0.
      (* 0 <= sum (a dx + b dy)^2 *)
      have Hq a b : (0 <= a * a * table_cov f f + 2 * a * b * table_cov f g + b * b * table_cov g g)%re.
      { have H : (0 <= table_mean (fun t i => (a * (f t i - table_mean f) + b * (g t i - table_mean g)) * (a * (f t i - table_mean f) + b * (g t i - table_mean g))))%re.
        { apply: Rmult_le_pos; last by apply: Rlt_le; apply: Rinv_0_lt_compat. apply: sumR_ge0 => t _. apply: sumR_ge0 => i _. exact: Rle_0_sqr. }
        have E : table_mean (fun t i => (a * (f t i - table_mean f) + b * (g t i - table_mean g)) * (a * (f t i - table_mean f) + b * (g t i - table_mean g))) = (a * a * table_cov f f + 2 * a * b * table_cov f g + b * b * table_cov g g)%re.
        { rewrite /table_cov /table_mean. rewrite -/(table_mean f) -/(table_mean g). have -> : (\sum_t \sum_i (a * (f t i - table_mean f) + b * (g t i - table_mean g)) * (a * (f t i - table_mean f) + b * (g t i - table_mean g)))%R =
            a * a * (\sum_t \sum_i ((f t i - table_mean f) * (f t i - table_mean f))%re) + 2%re * a * b * (\sum_t \sum_i ((f t i - table_mean f) * (g t i - table_mean g))%re) + b * b * (\sum_t \sum_i ((g t i - table_mean g) * (g t i - table_mean g))%re).
          { rewrite !big_distrr -!big_split /=. apply: eq_bigr => t _. rewrite !big_distrr -!big_split /=. apply: eq_bigr => i _. move: (table_mean f) (table_mean g) (f t i) (g t i) => p q r s. Rring. }
          hide_sums. toR. eqR. field. lra. }
        by rewrite E in H. }
      set sf := sqrt (table_cov f f) in Hsf *. set sg := sqrt (table_cov g g) in Hsg *. have Ef : (table_cov f f = sf * sf)%re by rewrite sqrt_sqrt //; lra. have Eg : (table_cov g g = sg * sg)%re by rewrite sqrt_sqrt //; lra.
      have H1 := Hq sg sf. have H2 := Hq sg (- sf)%re. rewrite Ef Eg in H1 H2. have Hp := Rmult_lt_0_compat _ _ Hsf Hsg. move: (table_cov f g) H1 H2 => v H1 H2.
      have Hc1 : (- (sf * sg) <= v)%re by nra. have Hc2 : (v <= sf * sg)%re by nra. split.
      - apply: (Rmult_le_reg_r (sf * sg)) => //. rewrite /Rdiv Rmult_assoc Rinv_l; lra.
      - apply: (Rmult_le_reg_r (sf * sg)) => //. rewrite /Rdiv Rmult_assoc Rinv_l; lra.
    Qed.
  End Corr.
End Table.

Section Tune.
  Context (K : nat).
  Notation vec := 'cV[R]_K.
  Notation nocol := (""%string, [::] : seq R).

  Theorem tune_grid idx cols times (preds : seq (seq Z * seq vec)) alphas m out :
    good_data idx cols times preds -> (0 < m)%N -> tune_alpha idx cols preds alphas m = Ok out ->
    let: (grid, corrs, rmses, weights) := out in
    grid = alphas /\ size corrs = size alphas /\ size rmses = size alphas /\ size weights = size alphas /\
    forall a, (a < size alphas)%N -> exists fitted, fit idx cols preds m (nth 0 alphas a) = Ok fitted /\ nth [::] weights a = fitted.2 /\
      let hat (t : 'I_(size times - m)) (i : 'I_(size cols)) := nth 0 (col_at fitted.1.2 i) t in
      let real (t : 'I_(size times - m)) (i : 'I_(size cols)) := return_at idx (col_at cols i) (nth Z0 times (m + t)) in
      nth 0 rmses a = table_rmse hat real /\ nth None corrs a = table_corr hat real.
  Proof.
    move=> Hg Hm. rewrite /tune_alpha. case E : (mapM _ _) => [l|//] /= [] <-. have [Hs Hn] := mapM_nth E. rewrite !size_map Hs. do 4 split=> //.
    move=> a Ha. have := Hn a 0 (None, 0, [::]) Ha. case Ef : (fit _ _ _ _ _) => [fitted|//] /=.
    have [Et [Ec [Ew Hcell]]] := fit_cells Hg Hm Ef. rewrite Et. have Hsd : size (drop m times) = (size times - m)%N by rewrite size_drop.
    case: (Hg) => Hi [Ht [Hc [Hp [Hnp [H0 Hsub]]]]].
    have Hcols : mapM (fun c : string * seq R => mapM (fun t => or_raise (dict_get Z.eqb (zip idx c.2) t) KeyError) (drop m times)) cols
                 = Ok [seq [seq return_at idx c.2 t | t <- drop m times] | c <- cols].
    { apply: ListFacts.mapM_ok => c Hcin. apply: ListFacts.mapM_ok => t Htin. have : List.In t idx.
      { apply: Hsub. move/(In_nthP Z0): Htin => [j]. rewrite size_drop nth_drop => Hj ->. apply: In_nth_size. lia. }
      move=> /(In_nthP Z0) [j Hj ->]. rewrite /return_at (get_nth 0) //; [exact: increasing_NoDup|exact: Hc]. }
    rewrite Hcols /= Hsd. case: ifP => // Hne [] Ea. exists fitted. split=> //. rewrite !(nth_map (None, 0, [::])) ?Hs // -Ea /=. split=> //.
    have Hc2 : size (map snd fitted.1.2) = size cols by rewrite size_map -(size_map fst) Ec size_map.
    have Hc3 : size [seq [seq return_at idx c.2 t | t <- drop m times] | c <- cols] = size cols by rewrite size_map.
    have HN : (0 < (size times - m) * size cols)%N.
    { move: Hne. rewrite (@flat_cols _ (size cols)) // flat_size lt0n. by move->. }
    rewrite !(@flat_cols _ (size cols)) // rmse_flat corr_flat //.
    have E1 : (fun (t : 'I_(size times - m)) (i : 'I_(size cols)) => nth 0 (nth [::] (map snd fitted.1.2) i) t) = (fun t i => nth 0 (col_at fitted.1.2 i) t).
    { apply: functional_extensionality => t. apply: functional_extensionality => i. rewrite (nth_map nocol) //. have : size fitted.1.2 = size cols by rewrite -Hc2 size_map. by move->. }
    have E2 : (fun (t : 'I_(size times - m)) (i : 'I_(size cols)) => nth 0 (nth [::] [seq [seq return_at idx c.2 t | t <- drop m times] | c <- cols] i) t) =
              (fun t i => return_at idx (col_at cols i) (nth Z0 times (m + t))).
    { apply: functional_extensionality => t. apply: functional_extensionality => i. rewrite (nth_map nocol) // (nth_map Z0) ?Hsd // nth_drop. by []. }
    by rewrite E1 E2.
  Qed.
End Tune.
