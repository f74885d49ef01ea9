(** * The combinators based on the lasso problem. *)
From Coq Require Import Reals Lra ZArith String List Lia.
Set Warnings "-notation-overridden,-ambiguous-paths".
From mathcomp Require Import all_ssreflect all_algebra.
From Verif Require Import RStruct MatR Num Py ListFacts Spec Combination CombPerm CombFacts Trader TraderOpt TraderBt TraderMain BacktestProps RetComb SpecRet RetEwm RetRidge RetFit RetMain RetInv.
Set Implicit Arguments.
Unset Strict Implicit.
Unset Printing Implicit Defensive.
Import GRing.Theory.
Local Open Scope ring_scope.
Delimit Scope R_scope with re.
Delimit Scope Z_scope with z.

Section Lasso.
  Context (K : nat).
  Notation vec := 'cV[R]_K.
  Implicit Types (y : nat -> R) (x : nat -> vec) (w : vec).

  Lemma lassoE m alpha y x t w : (m <= t)%N -> lasso alpha (days y t m) (days x t m) w = lasso_loss m alpha y x t w.
  Proof.
    move=> Hm. rewrite /lasso /lasso_loss. congr (_ + _). have Hs : size (zip (days y t m) (days x t m)) = m by rewrite size_zip !days_size minnn.
    rewrite (big_nth (0, 0)) Hs big_mkord (reindex_inj rev_ord_inj) /=. apply: eq_bigr => j _. have Hj : (m - j.+1 < m)%N by have H0 := ltn_ord j; clear -H0; lia.
    have E : (t - m + (m - j.+1) = t.-1 - j)%N by have H0 := ltn_ord j; clear -H0 Hm; lia.
    rewrite nth_zip ?days_size // !days_nth // E /=. by rewrite /dotp /forecast.
  Qed.
  Definition old_cell (solve : lsolver K) (idx : seq Z) (c : seq R) (times : seq Z) (xs : seq vec) m alpha t :=
    lasso_at solve m alpha (label_slice idx c (nth Z0 times (t - m)) (nth Z0 times t.-1)) (label_slice times xs (nth Z0 times (t - m)) (nth Z0 times t.-1)).
  Section Cell.
    Context (solve : lsolver K) (idx : seq Z) (c : seq R) (times : seq Z) (xs : seq vec) (m : nat) (alpha : R).
    Hypothesis (Hi : increasing idx) (Ht : increasing times) (Hc : size c = size idx) (Hx : size xs = size times).
    Hypothesis (Hsub : forall t, List.In t times -> List.In t idx) (Hm : (0 < m)%N).
    Let y s := return_at idx c (nth Z0 times s).
    Let x s := nth 0 xs s.
    Lemma old_pred t : (m <= t)%N -> (t < size times)%N -> label_slice times xs (nth Z0 times (t - m)) (nth Z0 times t.-1) = days x t m.
    Proof. move=> H1 H2. rewrite (label_window 0) //; [|lia|lia]. have -> : (t.-1 - (t - m)).+1 = m by lia. rewrite (days_window 0) //. rewrite Hx. exact: ltnW. Qed.
    Lemma old_ret t : (m <= t)%N -> (t < size times)%N -> size (label_slice idx c (nth Z0 times (t - m)) (nth Z0 times t.-1)) = m ->
      label_slice idx c (nth Z0 times (t - m)) (nth Z0 times t.-1) = days y t m.
    Proof.
      move=> H1 H2. rewrite slice_return // size_map -/(between idx times (t - m) t.-1) => Hs. have E := @between_exact idx times Hi Ht Hsub (t - m) m Hm.
      have Ep : (t - m + m).-1 = t.-1 by lia. rewrite Ep in E. rewrite E //; last lia. rewrite /window (days_window Z0) //; last exact: ltnW. by rewrite /days -map_comp.
    Qed.
    Lemma old_cell_ok t r : (m <= t)%N -> (t < size times)%N -> old_cell solve idx c times xs m alpha t = Ok r ->
      (0 <= alpha)%re /\ match r with Some w => solve (lasso alpha (days y t m) (days x t m)) = LSolved w | None => solve (lasso alpha (days y t m) (days x t m)) = LNone _ end.
    Proof.
      move=> H1 H2. rewrite /old_cell /lasso_at. case: ifP => // /negbT. rewrite negb_or !negbK => /andP [/eqP Hs _]. rewrite old_ret // old_pred //.
      case Ea : (Rltb alpha 0) => //. have Ha : (0 <= alpha)%re by move: Ea; rewrite /Rltb; case: Rlt_dec => // H _; lra.
      by case: (solve _) => [w|//|//] [] <-.
    Qed.
  End Cell.
  (** what a successful fit returns *)
  Theorem old_fit_ok solve idx c times (preds : seq vec) m alpha out :
    increasing idx -> increasing times -> size c = size idx -> size preds = size times -> (forall t, List.In t times -> List.In t idx) -> (0 < m)%N ->
    (forall f w, solve f = LSolved w -> minimiser f w) ->
    old_fit solve (Some (mkOld K m alpha)) idx c times preds = Ok out ->
    out.1.1 = drop m times /\ size out.1.2 = (size times - m)%N /\ size out.2 = (size times - m)%N /\
    forall t, (m <= t < size times)%N ->
      match nth None out.2 (t - m) with
      | Some w => minimiser (lasso_loss m alpha (fun s => return_at idx c (nth Z0 times s)) (fun s => nth 0 preds s) t) w /\
                  nth 0 out.1.2 (t - m) = forecast (nth 0 preds t) w
      | None => nth 0 out.1.2 (t - m) = 0
      end.
  Proof.
    move=> Hi Ht Hc Hx Hsub Hm Hsol. rewrite /old_fit /= eqxx /=. case: ifP => // _. case: ifP => // _. case E : (mapM _ _) => [W|//] /= [] <- /=.
    have [Hs Hn] := mapM_nth E. rewrite size_iota in Hs Hn. rewrite size_map size_iota Hs. do 3 split=> //. move=> t /andP [H1 H2].
    have Hj : (t - m < size times - m)%N by lia. have := Hn _ 0%N None Hj. rewrite nth_iota // subnKC // => Hcell.
    have [Ha Hr] := old_cell_ok Hi Ht Hc Hx Hsub Hm H1 H2 Hcell. rewrite (nth_map 0%N) ?size_iota // nth_iota // add0n subnKC //.
    case: (nth None W (t - m)) Hr => [w|//] Hr. split=> //. move=> w'. rewrite -!lassoE //. exact: (Hsol _ _ Hr).
  Qed.
  (** a large penalty *)
  Theorem lasso_zero m alpha y x t w : (forall k, (2 * Rabs (\sum_(j < m) y (t.-1 - j)%N * x (t.-1 - j)%N k ord0) < alpha)%re) ->
    minimiser (lasso_loss m alpha y x t) w -> w = 0.
  Proof.
    move=> Ha Hmin. have H := Hmin 0. case: (w =P 0) => // Hw. exfalso. move: H. apply: Rlt_not_le. pose b k := \sum_(j < m) y (t.-1 - j)%N * x (t.-1 - j)%N k 0.
    have E0 : lasso_loss m alpha y x t 0 = \sum_(j < m) y (t.-1 - j)%N * y (t.-1 - j)%N.
    { rewrite /lasso_loss. have -> : \sum_(k < K) Rabs ((0 : vec) k 0) = 0 by rewrite big1 // => k _; rewrite mxE; exact: Rabs_R0.
      rewrite Rmult_0_r Rplus_0_r. apply: eq_bigr => j _. have -> : forecast (x (t.-1 - j)%N) 0 = 0 by rewrite /forecast big1 // => k _; rewrite mxE mulr0.
      move: (y _) => a. Rring. }
    have E1 : lasso_loss m alpha y x t w = \sum_(j < m) y (t.-1 - j)%N * y (t.-1 - j)%N - 2%re * (\sum_k b k * w k 0) + \sum_(j < m) forecast (x (t.-1 - j)%N) w * forecast (x (t.-1 - j)%N) w + alpha * \sum_k Rabs (w k 0).
    { rewrite /lasso_loss. congr (_ + _). have -> : \sum_k b k * w k 0 = \sum_(j < m) y (t.-1 - j)%N * forecast (x (t.-1 - j)%N) w.
      { rewrite /b /forecast. under eq_bigr do rewrite big_distrl. rewrite exchange_big /=. apply: eq_bigr => j _. rewrite big_distrr. apply: eq_bigr => k _. by rewrite /= mulrA. }
      rewrite big_distrr -sumrB -big_split /=. apply: eq_bigr => j _. move: (y _) (forecast _ _) => p q. Rring. }
    have Hsq : (0 <= \sum_(j < m) forecast (x (t.-1 - j)%N) w * forecast (x (t.-1 - j)%N) w)%re by apply: sumR_ge0 => j _; exact: Rle_0_sqr.
    have [k Hk] : exists k, w k 0 != 0. { apply/existsP. apply: contraT => /existsPn H. case: Hw. apply/colP => k. rewrite mxE. apply/eqP. have := H k. by rewrite negbK. }
    have Hpos : (0 < \sum_k (alpha * Rabs (w k ord0) - 2 * (b k * w k ord0))%re)%re.
    { have Hab i : (2 * (b i * w i ord0) <= 2 * Rabs (b i) * Rabs (w i ord0))%re. { rewrite Rmult_assoc -Rabs_mult. apply: Rmult_le_compat_l; first lra. exact: Rle_abs. }
      apply: (@sumR_gt0 _ _ k) => [i|].
      - have := Hab i. have := Rabs_pos (w i 0). have := Ha i. rewrite -/(b i). move: (Rabs (w i ord0)) (Rabs (b i)) (b i * w i ord0)%re => p q r H1 H2 H3.
        have := Rmult_le_compat_r _ _ _ H2 (Rlt_le _ _ H1). lra.
      - have := Hab k. have : (0 < Rabs (w k ord0))%re by apply: Rabs_pos_lt; apply/eqP. have := Ha k. rewrite -/(b k). move: (Rabs (w k ord0)) (Rabs (b k)) (b k * w k ord0)%re => p q r H1 H2 H3.
        have := Rmult_lt_compat_r _ _ _ H2 H1. lra. }
    have E2 : \sum_k (alpha * Rabs (w k ord0) - 2 * (b k * w k ord0))%re = alpha * (\sum_k Rabs (w k 0)) - 2%re * (\sum_k b k * w k 0).
    { rewrite !big_distrr -sumrB /=. apply: eq_bigr => i _. reflexivity. }
    rewrite E2 in Hpos. rewrite E0 E1. move: Hpos Hsq. hide_sums. toR. lra.
  Qed.

  (** ** the two lasso combinators agree *)
  Lemma mapM_some A B (f : A -> res (option B)) (l : seq A) (W : seq B) :
    mapM (fun t => do w <- f t; or_raise w AttributeError) l = Ok W <-> mapM f l = Ok (map Some W).
  Proof.
    elim: l W => [|a l IH] W /=; first by split=> [[] <-|]; case: W. case: (f a) => [[b|]|e] /=; last by split.
    - split.
      + case E : (mapM _ l) => [r|e] //= [] <-. by move/IH: E => ->.
      + case E : (mapM f l) => [r|e] //= []. case: W => // w W [] -> Er. rewrite Er in E. by move/IH: E => ->.
    - split=> //. case: (mapM f l) => //= r []. by case: W.
  Qed.
  Theorem old_agrees solve idx c (preds : seq vec) m alpha : increasing idx -> (0 < m)%N -> forall hats W,
    ewma_return_combination solve idx c idx preds alpha m = Ok (drop m idx, hats, W) <->
    old_fit solve (Some (mkOld K m alpha)) idx c idx preds = Ok (drop m idx, hats, map Some W).
  Proof.
    move=> Hi Hm hats W. rewrite /ewma_return_combination /old_fit /= eqxx /= (proj2 (seqb_ZP idx idx)) // (proj2 (inc_bP idx)) // Hm /=.
    have -> : all (fun t => mem_Z t idx) idx.
    { rewrite /is_true. apply/List.forallb_forall => t Ht. exact/mem_ZP. }
    rewrite /=. set f := fun t : nat => lasso_at _ _ _ _ _. split.
    - case E : (mapM _ _) => [W'|e] //= [] <- <-. move/mapM_some: E => -> /=. congr (Ok (_, _, _)). rewrite size_map. apply/eq_in_map => j. rewrite mem_iota add0n => Hj.
      by rewrite (nth_map 0).
    - case E : (mapM f _) => [W'|e] //= [] <- E2. rewrite E2 in E *. move/mapM_some: E => -> /=. congr (Ok (_, _, _)). rewrite size_map. apply/eq_in_map => j. rewrite mem_iota add0n => Hj.
      by rewrite (nth_map 0).
  Qed.
  Theorem new_needs_solution solve idx c (preds : seq vec) m alpha out : increasing idx -> (0 < m)%N ->
    old_fit solve (Some (mkOld K m alpha)) idx c idx preds = Ok out -> List.In None out.2 ->
    ewma_return_combination solve idx c idx preds alpha m = Raise AttributeError.
  Proof.
    move=> Hi Hm. rewrite /ewma_return_combination /old_fit /= eqxx /= (proj2 (seqb_ZP idx idx)) // (proj2 (inc_bP idx)) // Hm /=.
    case: ifP => // _ /=. set f := fun t : nat => lasso_at _ _ _ _ _. set l := iota _ _. case E : (mapM f l) => [W|//] /= [] <- /= Hin.
    have -> // : mapM (fun t => do w <- f t; or_raise w AttributeError) l = Raise AttributeError.
    elim: l W E Hin => [|t l IH] W /=; first by case=> <-. case: (f t) => [[b|]|] //=; case E : (mapM f l) => [r|] //= [] <- /=; case=> // Hin. by rewrite (IH _ E Hin).
  Qed.
End Lasso.
