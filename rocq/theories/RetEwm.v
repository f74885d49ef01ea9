(** * Facts about the pandas operations of RetComb.v. *)
From Coq Require Import Reals Lra ZArith String List Lia.
Set Warnings "-notation-overridden,-ambiguous-paths".
From mathcomp Require Import all_ssreflect all_algebra.
From Verif Require Import RStruct MatR Num Py ListFacts Spec Combination CombPerm Trader TraderMain BacktestProps RetComb SpecRet.
Set Implicit Arguments.
Unset Strict Implicit.
Unset Printing Implicit Defensive.
Import GRing.Theory.
Local Open Scope ring_scope.
Delimit Scope R_scope with re.
Delimit Scope Z_scope with z.

Section Ewm.
  Context (a : R) (Ha : (0 < a)%re).
  Implicit Types x : nat -> option R.

  Lemma pow_pos n : (0 < a ^+ n)%re.
  Proof. elim: n => [|n IH]; first by rewrite expr0; apply: Rlt_0_1. rewrite exprS. exact: Rmult_lt_0_compat. Qed.
  Lemma weightS x t : seen_weight a x t.+1 = a * seen_weight a x t + (if x t is Some _ then 1 else 0).
  Proof.
    rewrite /seen_weight big_ord_recr /= subnn expr0 big_distrr /=. congr (_ + _). apply: eq_bigr => s _.
    case: (x s) => [_|]; last by rewrite mulr0. rewrite -exprS. congr (_ ^+ _). case: s => s /= Hs. case: t Hs => // t Hs. by rewrite subSn.
  Qed.
  Lemma sumS x t : seen_sum a x t.+1 = a * seen_sum a x t + (if x t is Some v then v else 0).
  Proof.
    rewrite /seen_sum big_ord_recr /= subnn expr0 big_distrr /=. congr (_ + _); last by case: (x t) => // v; rewrite mul1r.
    apply: eq_bigr => s _. case: (x s) => [v|]; last by rewrite mulr0. rewrite mulrA -exprS. congr (_ ^+ _ * _). case: s => s /= Hs. case: t Hs => // t Hs. by rewrite subSn.
  Qed.
  Definition seen x t := [exists s : 'I_t, isSome (x s)].
  Lemma seenS x t : seen x t.+1 = seen x t || isSome (x t).
  Proof.
    apply/existsP/idP.
    - move=> [[s Hs] /= H]. move: Hs. rewrite ltnS leq_eqVlt => /orP [/eqP <-|Hs]; first by rewrite H orbT.
      apply/orP; left. by apply/existsP; exists (Ordinal Hs).
    - case/orP => [/existsP [[s Hs] /= H]|H]; first by exists (Ordinal (leqW Hs)). by exists ord_max.
  Qed.
  Lemma unseen_weight x t : ~~ seen x t -> seen_weight a x t = 0.
  Proof. move=> /existsPn H. rewrite /seen_weight big1 // => s _. have := H s. by case: (x s). Qed.
  Lemma seen_pos x t : seen x t -> (0 < seen_weight a x t)%re.
  Proof.
    move=> /existsP [s Hs]. apply: (@sumR_gt0 _ _ s); last by case: (x s) Hs => // v _; exact: pow_pos.
    move=> i. case: (x i) => [v|]; last exact: Rle_refl. apply: Rlt_le. exact: pow_pos.
  Qed.
  Definition state_at x t : option R * R := (past_mean a x t, if seen x t then seen_weight a x t else 1).
  Lemma state_step x t : ewm_step a (state_at x t) (x t) = state_at x t.+1.
  Proof.
    rewrite /state_at /past_mean -/(seen x t) -/(seen x t.+1) seenS. case Hs : (seen x t) => /=.
    - have Hp := seen_pos Hs. rewrite weightS sumS /ewm_step /=. case: (x t) => [v|] /=.
      + congr (Some _, _). move: Hp. move: (seen_weight a x t) (seen_sum a x t) => w u Hp. toR. eqR. field. split; [|lra].
        have := Rmult_lt_0_compat _ _ Ha Hp. lra.
      + rewrite !addr0. congr (Some _, _). move: Hp. move: (seen_weight a x t) (seen_sum a x t) => w u Hp. toR. eqR. field. lra.
    - have Hw := unseen_weight (negbT Hs). rewrite weightS sumS Hw /ewm_step /=. case: (x t) => [v|] //=.
      have -> : seen_sum a x t = 0. { move/negbT/existsPn: Hs => H. rewrite /seen_sum big1 // => s _. have := H s. by case: (x s). }
      rewrite !mulr0 !add0r. congr (Some _, _). toR. eqR. field.
  Qed.
  Lemma ewm_loop_nth x xs t j : (forall s, (s < size xs)%N -> nth None xs s = x (t + s)%N) -> (j < size xs)%N ->
    nth None (ewm_loop a (state_at x t) xs) j = past_mean a x (t + j).+1.
  Proof.
    elim: xs t j => // y xs IH t j H Hj /=. have E : y = x t by have := H 0%N isT; rewrite addn0. rewrite E state_step.
    case: j Hj => [|j] Hj /=; first by rewrite addn0. rewrite IH //; first by rewrite addSnnS. move=> s Hs. rewrite addSnnS. exact: (H s.+1).
  Qed.
  Lemma ewm_nth xs j : (j < size xs)%N -> nth None (ewm_mean a xs) j = past_mean a (fun s => nth None xs s) j.+1.
  Proof.
    move=> Hj. rewrite /ewm_mean. have <- : state_at (fun s => nth None xs s) 0 = (None, 1).
      rewrite /state_at /past_mean /seen. by have -> : [exists s : 'I_0, isSome (nth None xs s)] = false by apply/existsP => [[[]]].
    exact: ewm_loop_nth.
  Qed.
  Lemma ewm_size xs : size (ewm_mean a xs) = size xs.
  Proof. rewrite /ewm_mean. move: (None, 1) => st. by elim: xs st => //= x xs IH st; rewrite IH. Qed.
  (** all values observed *)
  Lemma past_mean_all (v : nat -> R) x t : (forall s, (s < t)%N -> x s = Some (v s)) -> (0 < t)%N ->
    past_mean a x t = Some ((\sum_(s < t) a ^+ (t.-1 - s) * v s)%R / (\sum_(s < t) a ^+ (t.-1 - s))%R)%re.
  Proof.
    move=> H Ht. rewrite /past_mean. have -> : [exists s : 'I_t, isSome (x s)] by apply/existsP; exists (Ordinal Ht); rewrite H.
    have E1 : seen_sum a x t = \sum_(s < t) a ^+ (t.-1 - s) * v s by apply: eq_bigr => s _; rewrite H.
    have E2 : seen_weight a x t = \sum_(s < t) a ^+ (t.-1 - s) by apply: eq_bigr => s _; rewrite H.
    by rewrite E1 -E2.
  Qed.
End Ewm.

Lemma shift1E xs : shift_series 1 xs = take (size xs) (None :: xs).
Proof. rewrite /shift_series. have -> : Z.to_nat 1%z = 1%N by []. case: xs => [|x xs]; first by []. have -> : minn 1 (size (x :: xs)) = 1%N by rewrite /minn /= ltnS; case: (size xs). by rewrite /= subn1. Qed.
Lemma shift1_nth xs t : (t < size xs)%N -> nth None (shift_series 1 xs) t = if t is t'.+1 then nth None xs t' else None.
Proof. move=> Ht. rewrite shift1E nth_take //. by case: t Ht. Qed.
Lemma shift1_size xs : size (shift_series 1 xs) = size xs.
Proof. by rewrite shift1E size_take /= leqnn. Qed.

(** ** label slices *)
Lemma inc_bP l : increasing_b l <-> increasing l.
Proof.
  elim: l => [//|x l IH]. case: l IH => [//|y l] IH. rewrite /increasing_b /=. split.
  - move=> /andP [/Z.ltb_lt H1 H2]. split=> //. exact/IH.
  - case=> /Z.ltb_lt -> H2. exact/IH.
Qed.
Lemma mem_ZP t l : mem_Z t l <-> List.In t l.
Proof.
  rewrite /mem_Z. elim: l => //= x l IH. split.
  - by case/orP => [/Z.eqb_eq ->|/IH]; [left|right].
  - by case=> [->|/IH ->]; [rewrite Z.eqb_refl|rewrite orbT].
Qed.
Lemma nthE A (d : A) l i : List.nth i l d = nth d l i.
Proof. by elim: l i => [|x l IH] [|i] //=. Qed.
Lemma inc_nth_lt l i j : increasing l -> (i < j)%N -> (j < size l)%N -> (nth Z0 l i < nth Z0 l j)%z.
Proof.
  move=> H /ltP Hi /ltP Hj. rewrite -!nthE. exact: CombSolve.increasing_nth_lt.
Qed.
Lemma inc_nth_le l i j : increasing l -> (i <= j)%N -> (j < size l)%N -> (nth Z0 l i <= nth Z0 l j)%z.
Proof. move=> H. rewrite leq_eqVlt => /orP [/eqP -> _|Hi Hj]; [lia|]. have := inc_nth_lt H Hi Hj. lia. Qed.
Lemma In_nthP A (d : A) l y : List.In y l <-> exists2 j, (j < size l)%N & y = nth d l j.
Proof.
  elim: l => [|x l IH] /=; first by split=> // [[]]. split.
  - case=> [->|/IH [j Hj ->]]; [by exists 0%N|by exists j.+1].
  - case=> [[|j]] /= Hj Ey; [by left|right; apply/IH; by exists j].
Qed.
Lemma filter_keep A (p : A -> bool) l : (forall y, List.In y l -> p y) -> filter p l = l.
Proof. elim: l => //= x l IH H. rewrite H; last by left. rewrite IH // => y Hy. apply: H. by right. Qed.
Lemma filter_window A (d : A) (rows : seq (Z * A)) a b : increasing (map fst rows) -> (a <= b)%N -> (b < size rows)%N ->
  [seq p <- rows | Z.leb (nth Z0 (map fst rows) a) p.1 && Z.leb p.1 (nth Z0 (map fst rows) b)] = take (b - a).+1 (drop a rows).
Proof.
  move=> Hi Hab Hb. have Hsm := size_map fst rows. have Ha := leq_ltn_trans Hab Hb.
  have E j : (j < size rows)%N -> (nth (Z0, d) rows j).1 = nth Z0 (map fst rows) j by move=> Hj; rewrite (nth_map (Z0, d)).
  set P := fun p : Z * A => _.
  have -> : filter P rows = filter P (take a rows) ++ (filter P (take (b - a).+1 (drop a rows)) ++ filter P (drop (b - a).+1 (drop a rows))).
    by rewrite -!filter_cat !cat_take_drop.
  rewrite (filter_nil (l := take a rows) (p := P)) => [|y /(In_nthP (Z0, d)) [j]]; last first.
  { rewrite size_take Ha => Hj ->. rewrite nth_take // /P E; last exact: ltn_trans Ha. have H := inc_nth_lt Hi Hj. rewrite Hsm in H.
    apply/andP => [[/Z.leb_le H' _]]. have := H Ha. lia. }
  rewrite (filter_nil (l := drop _ _) (p := P)) => [|y /(In_nthP (Z0, d)) [j]]; last first.
  { rewrite drop_drop size_drop nth_drop addSn subnK // => Hj ->. have Hj' : (b.+1 + j < size rows)%N by rewrite -ltn_subRL.
    rewrite /P E //. have H := @inc_nth_lt _ b (b.+1 + j) Hi. rewrite Hsm addSn ltnS leq_addr in H. rewrite addSn in Hj' *.
    apply/andP => [[_ /Z.leb_le H']]. have := H isT Hj'. lia. }
  rewrite cats0 /=. apply: filter_keep => y /(In_nthP (Z0, d)) [j]. rewrite size_take size_drop => Hj ->.
  have Hj1 : (j < (b - a).+1)%N by move: Hj; case: ifP => // /negbT; rewrite -leqNgt => H1 H2; apply: leq_trans H2 H1.
  have Hj2 : (a + j <= b)%N by rewrite -leq_subRL // -ltnS.
  rewrite nth_take // nth_drop /P E; last exact: leq_ltn_trans Hb. apply/andP; split; apply/Z.leb_le; apply: inc_nth_le => //; rewrite ?Hsm ?leq_addr //.
  exact: leq_ltn_trans Hb.
Qed.
Lemma label_window A (d : A) times (l : seq A) a b : increasing times -> size l = size times -> (a <= b)%N -> (b < size times)%N ->
  label_slice times l (nth Z0 times a) (nth Z0 times b) = take (b - a).+1 (drop a l).
Proof.
  move=> Hi Hs Hab Hb. have Hm : map fst (zip times l) = times by rewrite -/unzip1 unzip1_zip // Hs.
  have H := @filter_window _ d (zip times l) a b. rewrite Hm size_zip Hs minnn in H. rewrite /label_slice H //.
  rewrite map_take map_drop -/unzip2 unzip2_zip // Hs //.
Qed.
