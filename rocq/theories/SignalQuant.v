(** * Quantiles and the tune_returns functions: proofs. *)
From Coq Require Import Reals Lra ZArith List Lia.
Set Warnings "-notation-overridden,-ambiguous-paths".
From mathcomp Require Import all_ssreflect all_algebra.
From Verif Require Import RStruct MatR Num Py ListFacts RetComb Signals SpecSignals.
Set Implicit Arguments.
Unset Strict Implicit.
Unset Printing Implicit Defensive.
Import GRing.Theory.
Local Open Scope ring_scope.
Delimit Scope R_scope with re.

Lemma RlebP x y : reflect (x <= y)%re (Rleb x y).
Proof. rewrite /Rleb. case: Rle_dec => H; by constructor. Qed.
Lemma RltbP x y : reflect (x < y)%re (Rltb x y).
Proof. rewrite /Rltb. case: Rlt_dec => H; by constructor. Qed.
Lemma Rleb_total : total Rleb.
Proof. move=> x y. case: RlebP => //= H. apply/RlebP. lra. Qed.
Lemma Rleb_trans : transitive Rleb.
Proof. move=> y x z /RlebP H1 /RlebP H2. apply/RlebP. lra. Qed.
Lemma Rleb_anti : antisymmetric Rleb.
Proof. move=> x y /andP [/RlebP H1 /RlebP H2]. lra. Qed.

Lemma sorted_nth_le s i j : sorted Rleb s -> (i <= j)%N -> (j < size s)%N -> (nth 0%re s i <= nth 0%re s j)%re.
Proof.
  move=> Hs Hij Hj. apply/RlebP. apply: (sorted_leq_nth Rleb_trans _ 0%re Hs) => //.
  - by move=> x; apply/RlebP; lra.
  - by rewrite inE; exact: leq_ltn_trans Hij Hj.
Qed.
Lemma count_sorted_lt s k : sorted Rleb s -> (k < size s)%N -> (count (fun y => Rltb y (nth 0%re s k)) s <= k)%N.
Proof.
  move=> Hs Hk. rewrite -[in X in count _ X](cat_take_drop k s) count_cat.
  rewrite (_ : count _ (drop k s) = 0%N).
  - rewrite addn0. apply: leq_trans (count_size _ _) _. by rewrite size_take Hk.
  - apply/eqP. rewrite eqn0Ngt -has_count. apply/hasPn => y /(nthP 0%re) [j Hj <-].
    rewrite nth_drop. rewrite size_drop in Hj. apply/RltbP => H.
    rewrite ltn_subRL in Hj. exact: (Rle_not_lt _ _ (sorted_nth_le Hs (leq_addr j k) Hj) H).
Qed.
Lemma count_sorted_le s k : sorted Rleb s -> (k < size s)%N -> (k < count (fun y => Rleb y (nth 0%re s k)) s)%N.
Proof.
  move=> Hs Hk. rewrite -[in X in count _ X](cat_take_drop k.+1 s) count_cat.
  apply: leq_trans (leq_addr _ _). 
  have E : all (fun y => Rleb y (nth 0%re s k)) (take k.+1 s).
  { apply/allP => y /(nthP 0%re) [j Hj <-]. rewrite size_take in Hj.
    have Hj' : (j < k.+1)%N. { by move: Hj; case: ifP => // H Hj; apply: leq_trans Hj _; rewrite leqNgt; apply/negP => H'; rewrite H' in H. }
    rewrite nth_take //. apply/RlebP. apply: sorted_nth_le => //. }
  move: E. rewrite all_count => /eqP ->. rewrite size_take. by case: ifP.
Qed.
Lemma kth_sort l k : (k < size l)%N -> kth_smallest l k (nth 0%re (sort Rleb l) k).
Proof.
  move=> Hk. have Hs := sort_sorted Rleb_total l. have Hz : (k < size (sort Rleb l))%N by rewrite size_sort.
  have Hp : perm_eq (sort Rleb l) l by rewrite perm_sort.
  split; [|split].
  - rewrite -(perm_mem Hp). exact: mem_nth.
  - rewrite -(permP Hp). exact: count_sorted_lt.
  - rewrite -(permP Hp). exact: count_sorted_le.
Qed.
Lemma kth_lt_size l k x : kth_smallest l k x -> (k < size l)%N.
Proof. move=> [_ [_ H]]. exact: leq_trans H (count_size _ _). Qed.
Lemma kth_unique l k x y : kth_smallest l k x -> kth_smallest l k y -> x = y.
Proof.
  have gen a b : kth_smallest l k a -> kth_smallest l k b -> ~ (a < b)%re.
  { move=> [_ [_ H1]] [_ [H2 _]] H. have := leq_trans H1 (leq_trans (sub_count _ l) H2). 
    have H3 : subpred (fun y0 : R => Rleb y0 a) (fun y0 : R => Rltb y0 b). { move=> z /RlebP Hz. apply/RltbP. lra. }
    move/(_ H3). by rewrite ltnn. }
  move=> Hx Hy. have := gen _ _ Hx Hy. have := gen _ _ Hy Hx. lra.
Qed.
Lemma kth_le l i j x y : (i <= j)%N -> kth_smallest l i x -> kth_smallest l j y -> (x <= y)%re.
Proof.
  move=> Hij Hx Hy. have Hj := kth_lt_size Hy. have Hi := kth_lt_size Hx.
  rewrite (kth_unique Hx (kth_sort Hi)) (kth_unique Hy (kth_sort Hj)).
  apply: sorted_nth_le => //; [exact: sort_sorted Rleb_total _|by rewrite size_sort].
Qed.

Lemma INR_add_unique k f k' f' : (INR k + f = INR k' + f')%re -> (0 <= f < 1)%re -> (0 <= f' < 1)%re -> k = k' /\ f = f'.
Proof.
  move=> E Hf Hf'. have Ek : k = k'.
  { have [H|[H|H]] : (k < k')%coq_nat \/ k = k' \/ (k' < k)%coq_nat by lia.
    - have := le_INR _ _ H. rewrite S_INR. lra.
    - done.
    - have := le_INR _ _ H. rewrite S_INR. lra. }
  split => //. subst. lra.
Qed.
Lemma is_quantile_unique l q v w : is_quantile l q v -> is_quantile l q w -> v = w.
Proof.
  move=> [k [f [lo [hi [E [Hf [Hlo Hv]]]]]]] [k' [f' [lo' [hi' [E' [Hf' [Hlo' Hw]]]]]]].
  have [Ek Ef] : k = k' /\ f = f' by apply: INR_add_unique => //; rewrite -E -E'.
  subst k' f'. have El := kth_unique Hlo Hlo'. subst lo'.
  case: Hv => [[F ->]|[Hh ->]]; case: Hw => [[F' ->]|[Hh' ->]].
  - by [].
  - rewrite F. ring.
  - rewrite F'. ring.
  - by rewrite (kth_unique Hh Hh').
Qed.

(** The value computed by the model. *)
Definition quant (l : seq R) (q : R) : R :=
  let s := sort Rleb l in let pos := (q * INR (size s).-1)%re in let k := Z.to_nat (Int_part pos) in
  (nth 0%re s k + (pos - INR k) * (nth 0%re s (minn k.+1 (size s).-1) - nth 0%re s k))%re.
Lemma Int_part_nat p : (0 <= p)%re -> (INR (Z.to_nat (Int_part p)) <= p < INR (Z.to_nat (Int_part p)) + 1)%re.
Proof.
  move=> Hp. have [H1 H2] := base_Int_part p.
  have H0 : Z.le Z0 (Int_part p). { have H : (IZR (-1) < IZR (Int_part p))%re by lra. have := lt_IZR _ _ H. lia. }
  rewrite INR_IZR_INZ Z2Nat.id //. lra.
Qed.
Lemma INR_predn n : (0 < n)%N -> INR n.-1 = (INR n - 1)%re.
Proof. case: n => // n _. rewrite S_INR /=. lra. Qed.
Lemma quant_ok l q : (0 <= q <= 1)%re -> (0 < size l)%N -> is_quantile l q (quant l q).
Proof.
  move=> Hq Hl. rewrite /quant size_sort. set pos := (q * INR (size l).-1)%re.
  have Hn : (0 <= INR (size l).-1)%re by apply: pos_INR.
  have Hpos : (0 <= pos <= INR (size l).-1)%re by rewrite /pos; nra.
  have [H1 H2] := Int_part_nat (proj1 Hpos). set k := Z.to_nat (Int_part pos) in H1 H2 *.
  have Hk : (k <= (size l).-1)%N.
  { have H : (INR k < INR (size l).-1 + 1)%re by lra. rewrite -S_INR in H. have := INR_lt _ _ H. move/ltP. by rewrite ltnS. }
  have Hk' : (k < size l)%N by rewrite -(prednK Hl) ltnS.
  exists k, (pos - INR k)%re, (nth 0%re (sort Rleb l) k), (nth 0%re (sort Rleb l) (minn k.+1 (size l).-1)).
  split; [rewrite -INR_predn //; rewrite /pos; ring|split; [lra|split; [exact: kth_sort|]]].
  case: (ltnP k (size l).-1) => H.
  - right. rewrite (minn_idPl H). split => //. apply: kth_sort. by rewrite -(prednK Hl) ltnS.
  - left. have Ek : k = (size l).-1 by apply/eqP; rewrite eqn_leq Hk H.
    have Ep : (pos - INR k = 0)%re by (rewrite Ek in H1 *; lra).
    split => //. rewrite Ep. ring.
Qed.
Lemma quantileE row q : (0 <= q <= 1)%re -> quantile row q = Ok (if size (values row) == 0%N then None else Some (quant (values row) q)).
Proof.
  move=> Hq. rewrite /quantile. 
  have -> : Rltb q 0 = false by apply/RltbP; lra.
  have -> : Rltb 1 q = false by apply/RltbP; lra.
  rewrite /= size_sort. rewrite -/(values row). case: eqP => // _. by rewrite /quant size_sort.
Qed.
Lemma quantile_raise row q : ~ (0 <= q <= 1)%re -> quantile row q = Raise ValueError.
Proof.
  move=> H. rewrite /quantile. case: RltbP => //= H1. case: RltbP => //= H2. lra.
Qed.
Lemma quant_between l q : (0 <= q <= 1)%re -> (0 < size l)%N -> exists k lo hi, kth_smallest l k lo /\ (lo <= quant l q <= hi)%re /\ 
   (hi = lo \/ kth_smallest l k.+1 hi) /\ (INR k <= q * (INR (size l) - 1) < INR k + 1)%re.
Proof.
  move=> Hq Hl. have [k [f [lo [hi [E [Hf [Hlo Hv]]]]]]] := quant_ok Hq Hl.
  case: Hv => [[F ->]|[Hh ->]].
  - exists k, lo, lo. split => //. split; [lra|]. split; [by left|lra].
  - exists k, lo, hi. have := kth_le (leqnSn k) Hlo Hh. split => //. split; [nra|]. split; [by right|lra].
Qed.
Lemma quant_mono l q q' : (0 <= q)%re -> (q <= q')%re -> (q' <= 1)%re -> (0 < size l)%N -> (quant l q <= quant l q')%re.
Proof.
  move=> H0 Hqq H1 Hl. have Hn : (0 <= INR (size l) - 1)%re by rewrite -INR_predn //; apply: pos_INR.
  have [k [f [lo [hi [E [Hf [Hlo Hv]]]]]]] := @quant_ok l q ltac:(lra) Hl.
  have [k' [f' [lo' [hi' [E' [Hf' [Hlo' Hv']]]]]]] := @quant_ok l q' ltac:(lra) Hl.
  have Hle : (INR k + f <= INR k' + f')%re by rewrite -E -E'; nra.
  have [Hlt|Hge] : (k < k')%coq_nat \/ (k >= k')%coq_nat by lia.
  - have Hl1 : (lo <= lo')%re by apply: (kth_le _ Hlo Hlo'); apply/leP; lia.
    have Hq1 : (quant l q <= lo')%re. { case: Hv => [[_ ->]|[Hh ->]] //. have := kth_le (i := k.+1) (j := k') ltac:(by apply/leP; lia) Hh Hlo'. nra. }
    have Hq2 : (lo' <= quant l q')%re. { case: Hv' => [[_ ->]|[Hh ->]]; [lra|]. have := kth_le (leqnSn k') Hlo' Hh. nra. }
    lra.
  - have Ek : k = k'. { have [//|Hc] : k = k' \/ (k' < k)%coq_nat by lia. have := le_INR _ _ Hc. rewrite S_INR. lra. }
    subst k'. have El := kth_unique Hlo Hlo'. subst lo'.
    case: Hv => [[F ->]|[Hh ->]]; case: Hv' => [[F' ->]|[Hh' ->]].
    + lra.
    + have := kth_le (leqnSn k) Hlo Hh'. nra.
    + have := kth_le (leqnSn k) Hlo Hh. have -> : f = 0%re by lra. lra.
    + rewrite (kth_unique Hh Hh'). have := kth_le (leqnSn k) Hlo Hh'. nra.
Qed.
