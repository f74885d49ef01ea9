(** * What ReturnCombinator.fit computes. *)
From Coq Require Import Reals Lra ZArith String List Lia.
Set Warnings "-notation-overridden,-ambiguous-paths".
From mathcomp Require Import all_ssreflect all_algebra.
From Verif Require Import RStruct MatR Num Py ListFacts Spec Combination CombPerm Trader TraderOpt TraderMain BacktestProps RetComb SpecRet RetEwm RetRidge.
Set Implicit Arguments.
Unset Strict Implicit.
Unset Printing Implicit Defensive.
Import GRing.Theory.
Local Open Scope ring_scope.
Delimit Scope R_scope with re.
Delimit Scope Z_scope with z.

(** ** Weights by age *)
Lemma beta_pow j : exp (ln (5 / 10) / 500)%re ^+ j = age_weight j.
Proof.
  rewrite /age_weight /Rpower. have -> : (5 / 10 = / 2)%re by field. elim: j => [|j IH].
  - rewrite expr0. have -> : (INR 0 / 500 * ln (/ 2))%re = 0 by rewrite /=; toR; field. by rewrite exp_0.
  - rewrite exprS IH. toR. rewrite -exp_plus. congr exp. rewrite S_INR. field.
Qed.
Lemma age_pos j : (0 < age_weight j)%re.
Proof. exact: exp_pos. Qed.
Lemma sum_iota (f : nat -> R) m : \sum_(y <- [seq f i | i <- iota 0 m]) y = \sum_(i < m) f i.
Proof. rewrite big_map -[m in iota 0 m]subn0 -/(index_iota 0 m). by rewrite big_mkord. Qed.
Lemma decayE m : decay_weights m = rev [seq share m j | j <- iota 0 m].
Proof.
  rewrite /decay_weights sum_iota -map_comp. congr rev. apply: eq_map => j /=. rewrite beta_pow /share. under eq_bigr do rewrite beta_pow.
  move: (\sum_(i < m) _)%R (age_weight j) => a b. rewrite /Rdiv. eqR. ring.
Qed.
Lemma decay_size m : size (decay_weights m) = m.
Proof. by rewrite decayE size_rev size_map size_iota. Qed.
Lemma decay_nth m i : (i < m)%N -> nth 0 (decay_weights m) i = share m (m.-1 - i).
Proof.
  move=> Hi. rewrite decayE nth_rev ?size_map ?size_iota // (nth_map 0%N) ?size_iota; last by case: m Hi => // m Hi; rewrite subSS ltnS leq_subr.
  rewrite nth_iota; last by case: m Hi => // m Hi; rewrite subSS ltnS leq_subr. rewrite add0n. congr share. case: m Hi => // m Hi.
Qed.
Lemma share_pos m j : (0 < m)%N -> (0 < share m j)%re.
Proof.
  move=> Hm. rewrite /share. apply: Rdiv_lt_0_compat.
  - apply: Rmult_lt_0_compat; [exact: lt_0_INR (ltP Hm)|exact: age_pos].
  - apply: (@sumR_gt0 _ _ (Ordinal Hm)) => [i|]; [apply: Rlt_le|]; exact: age_pos.
Qed.

(** ** Slices of the returns *)
Lemma dict_get_In V (l : seq (Z * V)) p : List.NoDup (map fst l) -> List.In p l -> dict_get Z.eqb l p.1 = Some p.2.
Proof.
  elim: l => [//|[k v] l IH] /= H. inversion H as [|? ? Hk Hn]; subst. case=> [<-|Hp] /=; first by rewrite Z.eqb_refl.
  case: (Z.eqb_spec p.1 k) => [E|_]; last exact: IH. case: Hk. rewrite -E. exact: (List.in_map fst) Hp.
Qed.
Lemma nth_return idx c j : increasing idx -> size c = size idx -> (j < size idx)%N -> return_at idx c (nth Z0 idx j) = nth 0 c j.
Proof.
  move=> Hi Hs Hj. rewrite /return_at. have Hz : (j < size (zip idx c))%N by rewrite size_zip Hs minnn.
  have := @dict_get_In _ (zip idx c) (nth (Z0, 0) (zip idx c) j). rewrite nth_zip // => -> //.
  - rewrite -/unzip1 unzip1_zip ?Hs //. exact: increasing_NoDup.
  - rewrite -nth_zip //. apply/(In_nthP (Z0, 0)). by exists j.
Qed.
Lemma slice_return idx c a b : increasing idx -> size c = size idx ->
  label_slice idx c a b = map (return_at idx c) [seq u <- idx | Z.leb a u && Z.leb u b].
Proof.
  move=> Hi Hs. rewrite /label_slice. have E : [seq u <- idx | Z.leb a u && Z.leb u b] = map fst [seq p <- zip idx c | Z.leb a p.1 && Z.leb p.1 b].
    by rewrite -[in LHS](@unzip1_zip _ _ idx c) ?Hs // /unzip1 filter_map.
  rewrite E -map_comp. have Hin : forall p, List.In p [seq p <- zip idx c | Z.leb a p.1 && Z.leb p.1 b] -> return_at idx c p.1 = p.2.
    move=> p /In_filter [Hp _]. rewrite /return_at (dict_get_In _ Hp) //. rewrite -/unzip1 unzip1_zip ?Hs //. exact: increasing_NoDup.
  elim: [seq p <- zip idx c | _] Hin => //= p l IH H. rewrite IH; last by move=> q Hq; apply: H; right. by rewrite H //; left.
Qed.
Lemma inc_filterZ (p : Z -> bool) l : increasing l -> increasing (filter p l).
Proof.
  elim: l => [//|x l IH] H /=. have Hl := IH (increasing_tail _ _ H). case: ifP => _ //. case E : (filter p l) Hl => [//|y r] Hl. split=> //.
  have := increasing_all_lt _ _ H. move=> /List.Forall_forall; apply. have : List.In y (filter p l) by rewrite E; left. by move/In_filter => [].
Qed.
Lemma inc_take m l : increasing l -> increasing (take m l).
Proof.
  elim: l m => [|x l IH] [|m] //= H. have := IH m (increasing_tail _ _ H). case: l H {IH} => [//|y l]; case: m => [//|m] [H H2] H1. by split.
Qed.
Lemma inc_drop m l : increasing l -> increasing (drop m l).
Proof. elim: l m => [|x l IH] [|m] //= H. exact: IH (increasing_tail _ _ H). Qed.
Definition window (times : seq Z) a m : seq Z := take m (drop a times).
Lemma window_size times a m : (a + m <= size times)%N -> size (window times a m) = m.
Proof. move=> H. rewrite /window size_takel // size_drop. by rewrite leq_subRL // (leq_trans (leq_addr _ _) H). Qed.
Lemma window_In times a m u : (a + m <= size times)%N -> List.In u (window times a m) <-> exists2 s, (a <= s < a + m)%N & u = nth Z0 times s.
Proof.
  move=> H. rewrite (In_nthP Z0) window_size //. split.
  - case=> j Hj ->. exists (a + j)%N; first by rewrite leq_addr ltn_add2l. by rewrite /window nth_take // nth_drop.
  - case=> s /andP [H1 H2] ->. exists (s - a)%N; first by rewrite ltn_subLR. rewrite /window nth_take ?ltn_subLR // nth_drop subnKC //.
Qed.
(** the labels of a slice of a larger index that has no more rows than the window *)
Section Labels.
  Context (idx times : seq Z) (Hi : increasing idx) (Ht : increasing times) (Hsub : forall t, List.In t times -> List.In t idx).
  Definition between a b := [seq u <- idx | Z.leb (nth Z0 times a) u && Z.leb u (nth Z0 times b)].
  Lemma window_between a m : (0 < m)%N -> (a + m <= size times)%N -> forall u, List.In u (window times a m) -> List.In u (between a (a + m).-1).
  Proof.
    move=> Hm H u /(window_In _ H) [s /andP [H1 H2] ->]. apply/In_filter. have Hs := leq_trans H2 H. split; first by apply: Hsub; apply/(In_nthP Z0); exists s.
    apply/andP; split; apply/Z.leb_le; apply: inc_nth_le => //; first by rewrite -ltnS prednK // addn_gt0 Hm orbT.
    by rewrite prednK // addn_gt0 Hm orbT.
  Qed.
  Lemma between_exact a m : (0 < m)%N -> (a + m <= size times)%N -> size (between a (a + m).-1) = m -> between a (a + m).-1 = window times a m.
  Proof.
    move=> Hm H Hs. apply: increasing_eq; [exact: inc_filterZ|by apply: inc_take; exact: inc_drop|]. move=> u. split; last exact: window_between.
    apply: (@List.NoDup_length_incl _ (window times a m)); first by apply: increasing_NoDup; apply: inc_take; exact: inc_drop.
    - have -> : List.length (between a (a + m).-1) = size (between a (a + m).-1) by []. have -> : List.length (window times a m) = size (window times a m) by [].
      by rewrite Hs window_size.
    - exact: window_between.
  Qed.
  Lemma between_aligned a m : aligned idx times -> (0 < m)%N -> (a + m < size times)%N -> between a (a + m).-1 = window times a m.
  Proof.
    move=> Hal Hm H. have H' := ltnW H. apply: increasing_eq; [exact: inc_filterZ|by apply: inc_take; exact: inc_drop|]. move=> u.
    split; last exact: window_between. move=> /In_filter [Hu /andP [/Z.leb_le H1 /Z.leb_le H2]].
    have Hp : (a + m).-1.+1 = (a + m)%N by rewrite prednK // addn_gt0 Hm orbT.
    have : List.In u times.
    { apply: (Hal u (a + m).-1) => //; first by rewrite Hp. apply: Z.le_trans H1. apply: inc_nth_le => //. exact: leq_ltn_trans (leq_addr _ _) H. }
    move=> /(In_nthP Z0) [s Hs Es]. apply/(window_In _ H'). exists s => //. subst u. apply/andP; split.
    - rewrite leqNgt. apply/negP => Hlt. have := inc_nth_lt Ht Hlt. have := leq_ltn_trans (leq_addr m a) H. lia.
    - rewrite -Hp ltnS leqNgt. apply/negP => Hlt. have := inc_nth_lt Ht Hlt Hs. lia.
  Qed.
End Labels.

(** ** One date of one column *)
Section Cell.
  Context (K : nat).
  Notation vec := 'cV[R]_K.
  Implicit Types (x : nat -> vec) (y : nat -> R) (xs : seq vec).

  Lemma scaleP xs t : (0 < t)%N -> (t < size xs)%N -> scale_at xs t = Ok (\col_k mean_square (fun s => nth 0 xs s) t k).
  Proof.
    move=> H0 Ht. have Ha : (0 < com_factor 250)%re by rewrite /com_factor; lra.
    have Ea : com_factor 250 = (250 / 251)%re by rewrite /com_factor; field.
    have E k : nth None (get_scales xs k) t = Some (mean_square (fun s => nth 0 xs s) t k).
    { rewrite /get_scales shift1_nth; last by rewrite ewm_size size_map. case: t H0 Ht => // t _ Ht.
      rewrite (ewm_nth Ha); last by rewrite size_map ltnW. rewrite (past_mean_all (com_factor 250) (v := fun s => nth 0 xs s k 0 * nth 0 xs s k 0)) //.
      - rewrite Ea. reflexivity.
      - move=> s Hs. rewrite (nth_map 0) //. exact: ltn_trans Hs Ht. }
    rewrite /scale_at. case: ifP => [_|/negbT /forallPn [k]]; last by rewrite E. congr Ok. apply/colP => k. by rewrite !mxE E.
  Qed.
  Lemma scale_0 xs : (0 < size xs)%N -> (0 < K)%N -> scale_at xs 0 = Raise Unmodelled.
  Proof.
    move=> Hs HK. rewrite /scale_at. case: ifP => [/forallP /(_ (Ordinal HK))|//]. rewrite /get_scales shift1_nth //. by rewrite ewm_size size_map.
  Qed.

  (** lists of the m days before t *)
  Definition days A (f : nat -> A) t m : seq A := [seq f s | s <- iota (t - m) m].
  Lemma days_size A (f : nat -> A) t m : size (days f t m) = m.
  Proof. by rewrite size_map size_iota. Qed.
  Lemma days_nth A (d : A) f t m i : (i < m)%N -> nth d (days f t m) i = f (t - m + i)%N.
  Proof. move=> Hi. by rewrite (nth_map 0%N) ?size_iota // nth_iota. Qed.
  Definition obs_of y x t m := zip (zip (decay_weights m) (days x t m)) (days y t m).
  Lemma obs_sum (V : zmodType) (F : R * vec * R -> V) y x t m : (m <= t)%N ->
    \sum_(p <- obs_of y x t m) F p = \sum_(j < m) F (share m j, x (t.-1 - j)%N, y (t.-1 - j)%N).
  Proof.
    move=> Hm. have Hs : size (obs_of y x t m) = m by rewrite !size_zip decay_size !days_size !minnn.
    rewrite (big_nth (0, 0, 0)) Hs big_mkord (reindex_inj rev_ord_inj) /=. apply: eq_bigr => j _. congr F.
    have Hj : (m - j.+1 < m)%N by have H0 := ltn_ord j; clear -H0; lia.
    rewrite !nth_zip ?size_zip ?decay_size ?days_size ?minnn // decay_nth // !days_nth //. case: j Hj => j /= Hj Hj'.
    have E1 : (m.-1 - (m - j.+1) = j)%N by apply/eqP; lia. have E2 : (t - m + (m - j.+1) = t.-1 - j)%N by lia. by rewrite E1 E2.
  Qed.
  Lemma ms_weight t : (0 < t)%N -> (0 < \sum_(s < t) (250 / 251)%re ^+ (t.-1 - s))%re.
  Proof. move=> Ht. apply: (@sumR_gt0 _ _ (Ordinal Ht)) => [s|]; [apply: Rlt_le|]; apply: pow_pos; lra. Qed.
  Lemma ms_ge0 x t k : (0 <= mean_square x t k)%re.
  Proof.
    case: t => [|t]; first by rewrite /mean_square !big_ord0 /Rdiv Rmult_0_l; exact: Rle_refl.
    apply: Rmult_le_pos; last by apply: Rlt_le; apply: Rinv_0_lt_compat; exact: ms_weight.
    apply: sumR_ge0 => s _. apply: Rmult_le_pos; last exact: Rle_0_sqr. apply: Rlt_le. apply: pow_pos. lra.
  Qed.
  Lemma ms_gt0 x t k : (exists2 s, (s < t)%N & x s k 0 <> 0) -> (0 < mean_square x t k)%re.
  Proof.
    move=> [s Hs Hx]. apply: Rdiv_lt_0_compat; last by apply: ms_weight; case: t Hs.
    apply: (@sumR_gt0 _ _ (Ordinal Hs)) => [s'|].
    - apply: Rmult_le_pos; last exact: Rle_0_sqr. apply: Rlt_le. apply: pow_pos. lra.
    - apply: Rmult_lt_0_compat; last exact: Rsqr_pos_lt. apply: pow_pos. lra.
  Qed.
  Definition scale_vec x t : vec := \col_k mean_square x t k.
  Lemma obs_loss y x t m alpha w : (m <= t)%N -> list_loss (obs_of y x t m) alpha (scale_vec x t) w = ridge_loss m alpha y x t w.
  Proof. move=> Hm. rewrite /list_loss obs_sum // /ridge_loss. congr (_ + alpha * _). apply: eq_bigr => k _. by rewrite mxE. Qed.
  Lemma obs_pos y x t m : (0 < m)%N -> pos_weights (obs_of y x t m).
  Proof.
    move=> Hm p /(nthP (0, 0, 0)) [i]. rewrite !size_zip decay_size !days_size !minnn => Hi <-.
    rewrite nth_zip ?size_zip ?decay_size ?days_size ?minnn //= nth_zip ?decay_size ?days_size //= decay_nth //. exact: share_pos.
  Qed.
  Lemma gwE y x t m alpha D : get_weights (days y t m) (days x t m) D alpha =
    if Amx (obs_of y x t m) alpha D \in unitmx then Ok (invmx (Amx (obs_of y x t m) alpha D) *m rhs (obs_of y x t m)) else Raise LinAlgError.
  Proof.
    rewrite /get_weights !days_size eqxx /=. set A := (_ + _). have -> // : Amx (obs_of y x t m) alpha D = A. rewrite /Amx /A. congr (_ + _).
    have E : unzip1 (obs_of y x t m) = zip (decay_weights m) (days x t m) by rewrite /obs_of unzip1_zip // size_zip decay_size !days_size minnn.
    by rewrite -E /unzip1 big_map.
  Qed.
  Definition cell (idx : seq Z) (c : seq R) (times : seq Z) (xs : seq vec) m alpha t :=
    do scale <- scale_at xs t;
    get_weights (label_slice idx c (nth Z0 times (t - m)) (nth Z0 times t.-1)) (label_slice times xs (nth Z0 times (t - m)) (nth Z0 times t.-1)) scale alpha.
  Lemma days_window A (d : A) (l : seq A) t m : (m <= t)%N -> (t <= size l)%N -> take m (drop (t - m) l) = days (fun s => nth d l s) t m.
  Proof.
    move=> Hm Ht. have Hs : size (take m (drop (t - m) l)) = m by rewrite size_takel // size_drop; lia.
    apply: (@eq_from_nth _ d); first by rewrite days_size. rewrite Hs => i Hi. by rewrite days_nth // nth_take // nth_drop.
  Qed.

  Section Aligned.
    Context (idx : seq Z) (c : seq R) (times : seq Z) (xs : seq vec) (m : nat) (alpha : R).
    Hypothesis (Hi : increasing idx) (Ht : increasing times) (Hc : size c = size idx) (Hx : size xs = size times).
    Hypothesis (Hsub : forall t, List.In t times -> List.In t idx) (Hm : (0 < m)%N).
    Let y s := return_at idx c (nth Z0 times s).
    Let x s := nth 0 xs s.
    Let pred_win t : (m <= t)%N -> (t < size times)%N -> label_slice times xs (nth Z0 times (t - m)) (nth Z0 times t.-1) = days x t m.
    Proof. move=> H1 H2. rewrite (label_window 0) //; [|lia|lia]. have -> : (t.-1 - (t - m)).+1 = m by lia. rewrite (days_window 0) //. rewrite Hx. exact: ltnW. Qed.
    Let ret_win t : (m <= t)%N -> (t < size times)%N -> between idx times (t - m) t.-1 = window times (t - m) m ->
      label_slice idx c (nth Z0 times (t - m)) (nth Z0 times t.-1) = days y t m.
    Proof.
      move=> H1 H2 E. rewrite slice_return // -/(between idx times (t - m) t.-1) E /window (days_window Z0) //; last exact: ltnW.
      by rewrite /days -map_comp.
    Qed.
    Let pred_t t : (m <= t)%N -> (t - m + m).-1 = t.-1.
    Proof. lia. Qed.
    Lemma cell_Ok t w : (m <= t)%N -> (t < size times)%N -> cell idx c times xs m alpha t = Ok w ->
      get_weights (days y t m) (days x t m) (scale_vec x t) alpha = Ok w.
    Proof.
      move=> H1 H2. rewrite /cell scaleP ?Hx //; last exact: leq_trans H1. rewrite /= pred_win // => Hg.
      have Es : size (label_slice idx c (nth Z0 times (t - m)) (nth Z0 times t.-1)) = m by move: Hg; rewrite /get_weights days_size; case: eqP.
      move: Hg. rewrite ret_win //. have E := @between_exact idx times Hi Ht Hsub (t - m) m Hm. rewrite pred_t // in E. apply: E; first lia.
      move: Es. by rewrite slice_return // size_map.
    Qed.
    Lemma cell_aligned t : aligned idx times -> (m <= t)%N -> (t < size times)%N ->
      cell idx c times xs m alpha t = get_weights (days y t m) (days x t m) (scale_vec x t) alpha.
    Proof.
      move=> Hal H1 H2. rewrite /cell scaleP ?Hx //; last exact: leq_trans H1. rewrite /= pred_win // ret_win //.
      have E := @between_aligned idx times Hi Ht Hsub (t - m) m Hal Hm. rewrite pred_t // in E. apply: E. lia.
    Qed.
    Lemma cell_cases t : (m <= t)%N -> (t < size times)%N ->
      (between idx times (t - m) t.-1 = window times (t - m) m /\
       cell idx c times xs m alpha t = get_weights (days y t m) (days x t m) (scale_vec x t) alpha) \/
      (between idx times (t - m) t.-1 <> window times (t - m) m /\ cell idx c times xs m alpha t = Raise ValueError).
    Proof.
      move=> H1 H2. have E := @between_exact idx times Hi Ht Hsub (t - m) m Hm. rewrite pred_t // in E. rewrite /cell scaleP ?Hx //; last exact: leq_trans H1.
      rewrite /= pred_win //. case: (size (between idx times (t - m) t.-1) =P m) => Hs.
      - left. rewrite ret_win //; last by (apply: E => //; lia). split=> //. apply: E => //. lia.
      - right. split; first by move=> E2; apply: Hs; rewrite E2 window_size //; lia.
        rewrite {1}/get_weights days_size slice_return // size_map -/(between idx times (t - m) t.-1). by case: eqP.
    Qed.
    Lemma cell_min t w : (0 <= alpha)%re -> (m <= t)%N -> (t < size times)%N -> cell idx c times xs m alpha t = Ok w ->
      unique_minimiser (ridge_loss m alpha y x t) w.
    Proof.
      move=> Ha H1 H2 /(cell_Ok H1 H2). rewrite gwE. case: ifP => // Hu [] <- w' Hw. rewrite -!obs_loss //. apply: loss_min Hw.
      - apply: psd_unit_spd => //. apply: Amx_psd => //; first exact: obs_pos. move=> k. rewrite mxE. exact: ms_ge0.
      - by rewrite mulKVmx.
    Qed.
  End Aligned.
End Cell.
