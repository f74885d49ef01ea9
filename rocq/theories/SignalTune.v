(** * tune_returns and tune_returns2: proofs. *)
From Coq Require Import Reals Lra ZArith List Lia.
Set Warnings "-notation-overridden,-ambiguous-paths".
From mathcomp Require Import all_ssreflect all_algebra.
From Verif Require Import RStruct MatR Num Py ListFacts RetComb Signals SpecSignals SignalQuant.
Set Implicit Arguments.
Unset Strict Implicit.
Unset Printing Implicit Defensive.
Import GRing.Theory.
Local Open Scope ring_scope.
Delimit Scope R_scope with re.

(** ** Quantiles under changes of the data *)
Lemma kth_affine c d l k x : (0 < c)%re -> kth_smallest l k x -> kth_smallest [seq (c * y + d)%re | y <- l] k (c * x + d)%re.
Proof.
  move=> Hc [H1 [H2 H3]]. split; [exact: map_f|]. rewrite !count_map.
  rewrite (@eq_count _ _ (fun y => Rltb y x)) ?(@eq_count _ (preim _ (fun y => Rleb y _)) (fun y => Rleb y x)) //.
  - move=> y /=. apply/RlebP/RlebP => H; nra.
  - move=> y /=. apply/RltbP/RltbP => H; nra.
Qed.
Lemma is_quantile_affine c d l q v : (0 < c)%re -> is_quantile l q v -> is_quantile [seq (c * y + d)%re | y <- l] q (c * v + d)%re.
Proof.
  move=> Hc [k [f [lo [hi [E [Hf [Hlo Hv]]]]]]]. exists k, f, (c * lo + d)%re, (c * hi + d)%re. rewrite size_map.
  do 3 (split; [by [|exact: kth_affine]|]).
  case: Hv => [[F ->]|[Hh ->]]; [by left|right]. split; [exact: kth_affine|ring].
Qed.
Lemma countN_le l x : count (fun y => Rltb y (- x)%re) [seq (- y)%re | y <- l] = (size l - count (fun y => Rleb y x) l)%N.
Proof.
  rewrite count_map -(count_predC (fun y => Rleb y x) l) addnC addnK. apply: eq_count => y /=.
  case: RltbP => H1; case: RlebP => H2 //=; lra.
Qed.
Lemma countN_lt l x : count (fun y => Rleb y (- x)%re) [seq (- y)%re | y <- l] = (size l - count (fun y => Rltb y x) l)%N.
Proof.
  rewrite count_map -(count_predC (fun y => Rltb y x) l) addnC addnK. apply: eq_count => y /=.
  case: RltbP => H1; case: RlebP => H2 //=; lra.
Qed.
Lemma kth_mirror l k x : kth_smallest l k x -> kth_smallest [seq (- y)%re | y <- l] (size l - k.+1) (- x)%re.
Proof.
  move=> H. have Hk := kth_lt_size H. case: H => H1 [H2 H3]. split; [exact: map_f|]. rewrite countN_le countN_lt. split.
  - exact: leq_sub2l.
  - rewrite subnSK //. exact: leq_sub2l.
Qed.
Lemma is_quantile_mirror l q v : is_quantile l q v -> is_quantile [seq (- y)%re | y <- l] (1 - q)%re (- v)%re.
Proof.
  move=> [k [f [lo [hi [E [Hf [Hlo Hv]]]]]]]. have Hk := kth_lt_size Hlo.
  have Hn : INR (size l - k.+1) = (INR (size l) - INR k - 1)%re by rewrite minus_INR ?S_INR; [lra|exact/leP].
  case: (Req_dec f 0) => F.
  - exists (size l - k.+1)%N, 0%re, (- lo)%re, 0%re. rewrite size_map. split; [rewrite Hn; lra|]. split; [lra|]. split; [exact: kth_mirror|].
    left. split=> //. case: Hv => [[_ ->]|[_ ->]] //. rewrite F. ring.
  - case: Hv => [[//]|[Hh ->]]. have Hk' := kth_lt_size Hh.
    have Hn' : INR (size l - k.+2) = (INR (size l) - INR k - 2)%re by rewrite minus_INR ?S_INR; [lra|exact/leP].
    exists (size l - k.+2)%N, (1 - f)%re, (- hi)%re, (- lo)%re. rewrite size_map Hn'. split; [lra|]. split; [lra|]. split; [exact: kth_mirror|].
    right. split; [|ring]. rewrite subnSK //. exact: kth_mirror.
Qed.
Lemma is_quantile_perm l l' q v : perm_eq l l' -> is_quantile l q v -> is_quantile l' q v.
Proof.
  move=> Hp. have Hk k x : kth_smallest l k x -> kth_smallest l' k x.
  { move=> [H1 H2]. split; [by rewrite -(perm_mem Hp)|]. by rewrite -!(permP Hp). }
  move=> [k [f [lo [hi [E [Hf [Hlo Hv]]]]]]]. exists k, f, lo, hi. rewrite -(perm_size Hp). do 2 (split => //). split; [exact: Hk|].
  case: Hv => [?|[Hh ?]]; [by left|right]. split => //. exact: Hk.
Qed.
Lemma quantE l q v : (0 <= q <= 1)%re -> is_quantile l q v -> quant l q = v.
Proof.
  move=> Hq H. have Hl : (0 < size l)%N. { case: H => k [f [lo [hi [_ [_ [Hlo _]]]]]]. exact: leq_trans (kth_lt_size Hlo). }
  exact: is_quantile_unique (quant_ok Hq Hl) H.
Qed.

(** ** How many values lie below a quantile *)
Lemma below_quantile l q v : is_quantile l q v -> (INR (count (fun y => Rltb y v) l) < q * (INR (size l) - 1) + 1)%re.
Proof.
  move=> [k [f [lo [hi [E [Hf [Hlo Hv]]]]]]]. rewrite E.
  have Base : v = lo -> (INR (count (fun y => Rltb y v) l) < INR k + f + 1)%re.
  { move=> ->. case: Hlo => _ [/leP/le_INR H _]. lra. }
  case: Hv => [[_ Ev]|[Hh Ev]]; [exact: Base|].
  have Hlh := kth_le (leqnSn k) Hlo Hh.
  case: (Req_dec f 0) => F; [apply: Base; rewrite Ev F; ring|].
  case: (Req_dec hi lo) => Fh; [apply: Base; rewrite Ev Fh; ring|].
  have Hvh : (v < hi)%re by rewrite Ev; nra.
  have : (count (fun y => Rltb y v) l <= k.+1)%N.
  { case: Hh => _ [H _]. apply: leq_trans H. apply: sub_count => y /RltbP Hy. apply/RltbP. lra. }
  move/leP/le_INR. rewrite S_INR. lra.
Qed.
Lemma count_le_split l x : count (fun y => Rleb y x) l = (count (fun y => Rltb y x) l + count_mem x l)%N.
Proof.
  elim: l => //= y l ->. rewrite [RHS]addnACA. congr addn.
  case: RlebP => H1; case: RltbP => H2 //=; case: eqP => H3 //=; subst; lra + (case: H3; lra).
Qed.
Lemma below_quantile_uniq l q v : uniq l -> is_quantile l q v -> (q * (INR (size l) - 1) <= INR (count (fun y => Rltb y v) l))%re.
Proof.
  move=> Hu [k [f [lo [hi [E [Hf [Hlo Hv]]]]]]]. rewrite E.
  have Hk : (k <= count (fun y => Rltb y lo) l)%N.
  { case: Hlo => H0 [_ H]. rewrite count_le_split (count_uniq_mem _ Hu) H0 addn1 in H. by rewrite -ltnS. }
  case: Hv => [[F ->]|[Hh Ev]]; [move/leP/le_INR: Hk; lra|].
  have Hlh : (lo < hi)%re.
  { have [//|Eh] := kth_le (leqnSn k) Hlo Hh. subst hi. case: Hlo Hh => H0 [H1 _] [_ [_ H2]].
    move: H2. rewrite count_le_split (count_uniq_mem _ Hu) H0 addn1 ltnS => H2. have := leq_trans H2 H1. by rewrite ltnn. }
  case: (Req_dec f 0) => F.
  { have -> : v = lo by rewrite Ev F; ring. move/leP/le_INR: Hk. lra. }
  have Hvl : (lo < v)%re by rewrite Ev; nra.
  have : (k.+1 <= count (fun y => Rltb y v) l)%N.
  { case: Hlo => _ [_ H]. apply: leq_trans H _. apply: sub_count => y /RlebP Hy. apply/RltbP. lra. }
  move/leP/le_INR. rewrite S_INR. lra.
Qed.
Lemma count_above l v : count (fun y => Rltb v y) l = count (fun y => Rltb y (- v)%re) [seq (- y)%re | y <- l].
Proof. rewrite count_map. apply: eq_count => y /=. apply/RltbP/RltbP => H; lra. Qed.
Lemma above_quantile l q v : is_quantile l q v -> (INR (count (fun y => Rltb v y) l) < (1 - q) * (INR (size l) - 1) + 1)%re.
Proof. move=> H. rewrite count_above. have := below_quantile (is_quantile_mirror H). by rewrite size_map. Qed.
Lemma above_quantile_uniq l q v : uniq l -> is_quantile l q v -> ((1 - q) * (INR (size l) - 1) <= INR (count (fun y => Rltb v y) l))%re.
Proof.
  move=> Hu H. rewrite count_above. have := @below_quantile_uniq _ _ _ _ (is_quantile_mirror H). rewrite size_map. apply.
  rewrite map_inj_uniq // => x y E. lra.
Qed.

(** ** tune_returns *)
Definition tune_row (lower upper : R) (row : seq (option R)) : seq (option R) :=
  let f q := if size (values row) == 0%N then None else Some (quant (values row) q) in
  [seq clip_entry (f lower) (f upper) x | x <- row].
Lemma tune_ok lower upper rows : (0 <= lower <= 1)%re -> (0 <= upper <= 1)%re ->
  tune_returns lower upper rows = Ok [seq tune_row lower upper row | row <- rows].
Proof. move=> Hl Hu. apply: mapM_ok => row _. by rewrite !quantileE. Qed.
Lemma tune_raise lower upper rows : ~ ((0 <= lower <= 1)%re /\ (0 <= upper <= 1)%re) -> (0 < size rows)%N ->
  tune_returns lower upper rows = Raise ValueError.
Proof.
  case: rows => // row rows H _. rewrite /tune_returns /=.
  have [Hl|Hl] : (0 <= lower <= 1)%re \/ ~ (0 <= lower <= 1)%re by lra.
  - rewrite quantileE // quantile_raise //. lra.
  - by rewrite quantile_raise.
Qed.
Lemma tune_inv lower upper rows out : tune_returns lower upper rows = Ok out ->
  (size rows = 0%N /\ out = [::]) \/ ((0 <= lower <= 1)%re /\ (0 <= upper <= 1)%re /\ out = [seq tune_row lower upper row | row <- rows]).
Proof.
  move=> H. case: (posnP (size rows)) => Hs.
  - left. split => //. move: H. by rewrite (size0nil Hs) => [[<-]].
  - right. have [[Hl Hu]|Hn] : ((0 <= lower <= 1)%re /\ (0 <= upper <= 1)%re) \/ ~ ((0 <= lower <= 1)%re /\ (0 <= upper <= 1)%re) by lra.
    + move: H. by rewrite tune_ok // => [[<-]].
    + by rewrite tune_raise in H.
Qed.
Arguments clip_entry : simpl never.
Lemma clip_into a b x : clip_entry (Some a) (Some b) x = omap (into (Rmin a b) (Rmax a b)) x.
Proof.
  case: x => [v|] //. rewrite /clip_entry /=. congr Some. rewrite /into.
  have H : (Rmin a b <= Rmax a b)%re by apply: Rle_trans (Rmin_l a b) (Rmax_l a b).
  move: (Rmin a b) (Rmax a b) H => m M H. rewrite /Rmin /Rmax.
  case: RltbP => ?; [|case: RltbP => ?]; case: (Rle_dec v m) => ?; case: (Rle_dec _ M) => ?; lra.
Qed.
Lemma values_nil row : size (values row) = 0%N -> row = nseq (size row) None.
Proof. by elim: row => //= -[v|] row IH //= H; rewrite {1}IH. Qed.
Lemma clip_none l : [seq clip_entry None None x | x <- l] = l.
Proof. by elim: l => //= x l ->. Qed.
Lemma tune_values lower upper rows out : tune_returns lower upper rows = Ok out ->
  [seq size r | r <- out] = [seq size r | r <- rows] /\
  forall t, (t < size rows)%N -> let row := nth [::] rows t in
    (values row = [::] /\ nth [::] out t = row) \/
    exists a b, is_quantile (values row) lower a /\ is_quantile (values row) upper b /\
      forall i, (i < size row)%N -> cell None out t i = omap (into (Rmin a b) (Rmax a b)) (cell None rows t i).
Proof.
  move/tune_inv => [[Hs ->]|[Hl [Hu ->]]].
  - by rewrite (size0nil Hs).
  - split. { rewrite -map_comp. apply: eq_map => row /=. by rewrite size_map. }
    move=> t Ht row. rewrite /cell (nth_map [::]) // -/row.
    rewrite /tune_row. case: eqP => [H|/eqP]; [left|rewrite -lt0n => H; right].
    + split; [exact: size0nil|exact: clip_none].
    + exists (quant (values row) lower), (quant (values row) upper). do 2 (split; [exact: quant_ok|]).
      move=> i Hi. by rewrite (nth_map None) // clip_into.
Qed.
Lemma tune_total lower upper rows : (0 <= lower <= 1)%re -> (0 <= upper <= 1)%re -> exists out, tune_returns lower upper rows = Ok out.
Proof. move=> Hl Hu. eexists. exact: tune_ok. Qed.
Lemma into_mono lo hi u v : (lo <= hi)%re -> (u <= v)%re -> (into lo hi u <= into lo hi v)%re.
Proof. rewrite /into => H1 H2. repeat (case: RltbP => ?); lra. Qed.
Lemma Rmin_max a b : (Rmin a b <= Rmax a b)%re.
Proof. exact: Rle_trans (Rmin_l a b) (Rmax_l a b). Qed.
Lemma tune_order lower upper rows out t i j u v : tune_returns lower upper rows = Ok out ->
  cell None rows t i = Some u -> cell None rows t j = Some v -> (u <= v)%re ->
  exists u' v', cell None out t i = Some u' /\ cell None out t j = Some v' /\ (u' <= v')%re.
Proof.
  move=> H Hi Hj Huv.
  have Ht : (t < size rows)%N. { rewrite ltnNge. apply/negP => Hc. by rewrite /cell (nth_default _ Hc) nth_nil in Hi. }
  have Hin k w : cell None rows t k = Some w -> (k < size (nth [::] rows t))%N.
  { move=> Hk. rewrite ltnNge. apply/negP => Hc. by rewrite /cell nth_default in Hk. }
  have [_ /(_ t Ht) [[_ E]|[a [b [_ [_ E]]]]]] := tune_values H.
  - exists u, v. by rewrite /cell E.
  - rewrite !E ?Hi ?Hj /=; [|exact: Hin Hj|exact: Hin Hi]. do 2 eexists. do 2 (split; [reflexivity|]). exact: into_mono (Rmin_max a b) Huv.
Qed.
Lemma tune_swap lower upper rows : tune_returns lower upper rows = tune_returns upper lower rows.
Proof.
  case: (posnP (size rows)) => Hs; first by rewrite (size0nil Hs).
  have [[Hl Hu]|Hn] : ((0 <= lower <= 1)%re /\ (0 <= upper <= 1)%re) \/ ~ ((0 <= lower <= 1)%re /\ (0 <= upper <= 1)%re) by lra.
  - rewrite !tune_ok //. congr Ok. apply: eq_map => row. rewrite /tune_row. apply: eq_map => x. case: eqP => // _.
    by rewrite !clip_into Rmin_comm Rmax_comm.
  - rewrite !tune_raise //. by move=> [? ?]; apply: Hn.
Qed.
Lemma values_map f row : values [seq omap f x | x <- row] = [seq f x | x <- values row].
Proof. by elim: row => //= -[v|] row /= IH; rewrite /values /= -/(values _) IH. Qed.
Lemma into_affine c d lo hi v : (0 < c)%re -> into (c * lo + d) (c * hi + d) (c * v + d) = (c * into lo hi v + d)%re.
Proof.
  move=> Hc. rewrite /into. 
  have -> : Rltb (c * v + d) (c * lo + d) = Rltb v lo by apply/RltbP/RltbP => ?; nra.
  have -> : Rltb (c * hi + d) (c * v + d) = Rltb hi v by apply/RltbP/RltbP => ?; nra.
  by case: RltbP => _ //; case: RltbP.
Qed.
Lemma Rmin_affine c d a b : (0 < c)%re -> Rmin (c * a + d) (c * b + d) = (c * Rmin a b + d)%re.
Proof. move=> Hc. rewrite /Rmin. case: Rle_dec => H1; case: Rle_dec => H2 //; nra. Qed.
Lemma Rmax_affine c d a b : (0 < c)%re -> Rmax (c * a + d) (c * b + d) = (c * Rmax a b + d)%re.
Proof. move=> Hc. rewrite /Rmax. case: Rle_dec => H1; case: Rle_dec => H2 //; nra. Qed.
Lemma omap_comp' A B C (f : B -> C) (g : A -> B) x : omap f (omap g x) = omap (fun a => f (g a)) x.
Proof. by case: x. Qed.
Lemma tune_units c d lower upper rows out : (0 < c)%re -> tune_returns lower upper rows = Ok out ->
  tune_returns lower upper (map_table (fun x => c * x + d)%re rows) = Ok (map_table (fun x => c * x + d)%re out).
Proof.
  move=> Hc /tune_inv [[Hs ->]|[Hl [Hu ->]]]; first by rewrite (size0nil Hs).
  rewrite tune_ok // /map_table -!map_comp. congr Ok. apply: eq_map => row /=.
  rewrite /tune_row values_map !size_map -!map_comp. case: eqP => [H|/eqP]; first by apply: eq_map => -[].
  rewrite -lt0n => H. apply: eq_map => x /=. rewrite !clip_into.
  have Q q : (0 <= q <= 1)%re -> quant [seq (c * y + d)%re | y <- values row] q = (c * quant (values row) q + d)%re.
  { move=> Hq. apply: quantE => //. apply: is_quantile_affine => //. exact: quant_ok. }
  rewrite !Q //.
  rewrite Rmin_affine // Rmax_affine // !omap_comp'. case: x => //= v. by rewrite into_affine.
Qed.
Lemma into_mirror lo hi v : (lo <= hi)%re -> into (- hi) (- lo) (- v) = (- into lo hi v)%re.
Proof. rewrite /into => H. repeat (case: RltbP => ?); lra. Qed.
Lemma tune_mirror lower upper rows out : tune_returns lower upper rows = Ok out ->
  tune_returns (1 - upper)%re (1 - lower)%re (map_table Ropp rows) = Ok (map_table Ropp out).
Proof.
  move=> /tune_inv [[Hs ->]|[Hl [Hu ->]]]; first by rewrite (size0nil Hs).
  rewrite tune_ok; [|lra|lra]. rewrite /map_table -!map_comp. congr Ok. apply: eq_map => row /=.
  rewrite /tune_row values_map !size_map -!map_comp. case: eqP => [H|/eqP]; first by apply: eq_map => -[].
  rewrite -lt0n => H. apply: eq_map => x /=. rewrite !clip_into.
  have Q q : (0 <= q <= 1)%re -> quant [seq Ropp y | y <- values row] (1 - q) = (- quant (values row) q)%re.
  { move=> Hq. apply: quantE; [lra|]. apply: is_quantile_mirror. exact: quant_ok. }
  rewrite !Q // !omap_comp'. case: x => //= v.
  have -> : Rmin (- quant (values row) upper) (- quant (values row) lower) = (- Rmax (quant (values row) lower) (quant (values row) upper))%re.
  { rewrite Rmin_comm. by rewrite Ropp_Rmax. }
  have -> : Rmax (- quant (values row) upper) (- quant (values row) lower) = (- Rmin (quant (values row) lower) (quant (values row) upper))%re.
  { rewrite Rmax_comm. by rewrite Ropp_Rmin. }
  rewrite into_mirror //. exact: Rmin_max.
Qed.
Lemma perm_values row p : perm_eq p (iota 0 (size row)) -> perm_eq (values [seq nth None row i | i <- p]) (values row).
Proof.
  move=> H. rewrite /values. apply: perm_pmap.
  have E : [seq nth None row i | i <- iota 0 (size row)] = row by rewrite map_nth_iota0 // take_size.
  rewrite -{2}E. exact: perm_map.
Qed.
Lemma tune_assets p lower upper rows out : (forall row, List.In row rows -> perm_eq p (iota 0 (size row))) ->
  tune_returns lower upper rows = Ok out -> tune_returns lower upper (rearrange None p rows) = Ok (rearrange None p out).
Proof.
  move=> Hp /tune_inv [[Hs ->]|[Hl [Hu ->]]]; first by rewrite (size0nil Hs).
  rewrite tune_ok // /rearrange -!map_comp. congr Ok. apply: List.map_ext_in => row Hr /=.
  have {}Hp := Hp _ Hr. have Hv := perm_values Hp. rewrite /tune_row (perm_size Hv) -map_comp.
  apply/eq_in_map => i Hi /=. have Hi' : (i < size row)%N by move: Hi; rewrite (perm_mem Hp) mem_iota.
  rewrite (nth_map None) //. case: eqP => // /eqP. rewrite -lt0n => H.
  have Q q : (0 <= q <= 1)%re -> quant (values [seq nth None row i | i <- p]) q = quant (values row) q.
  { move=> Hq. apply: quantE => //. apply: is_quantile_perm (quant_ok Hq H). by rewrite perm_sym. }
  by rewrite !Q.
Qed.
Lemma tune_prefix lower upper rows out k : tune_returns lower upper rows = Ok out -> tune_returns lower upper (take k rows) = Ok (take k out).
Proof.
  move=> /tune_inv [[Hs ->]|[Hl [Hu ->]]]; first by rewrite (size0nil Hs).
  by rewrite tune_ok // map_take.
Qed.
Lemma mem_values (v : R) row : (v \in values row) = (Some v \in row).
Proof.
  rewrite /values. elim: row => //= -[w|] row IH /=; by rewrite !inE IH.
Qed.
Lemma is_quantile_0 l v : (0 < size l)%N -> is_quantile l 0 v -> forall x, x \in l -> (v <= x)%re.
Proof.
  move=> Hl [k [f [lo [hi [E [Hf [Hlo Hv]]]]]]] x Hx.
  have [Ek Ef] : k = 0%N /\ f = 0%re by apply: INR_add_unique => //=; lra.
  have -> : v = lo by case: Hv => [[_ ->]|[_ ->]] //; rewrite Ef; ring.
  case: Hlo => _ [H _]. rewrite Ek leqn0 in H. apply: Rnot_lt_le => Hc. move: H. rewrite -[_ == 0%N]negbK -lt0n -has_count.
  move/negP. apply. apply/hasP. exists x => //. exact/RltbP.
Qed.
Lemma is_quantile_1 l v : (0 < size l)%N -> is_quantile l 1 v -> forall x, x \in l -> (x <= v)%re.
Proof.
  move=> Hl H x Hx. have H' := is_quantile_mirror H. rewrite (_ : 1 - 1 = 0)%re in H'; last ring.
  have := is_quantile_0 (l := [seq (- y)%re | y <- l]) ltac:(by rewrite size_map) H' (map_f Ropp Hx). lra.
Qed.
Lemma tune_full rows : tune_returns 0 1 rows = Ok rows.
Proof.
  rewrite tune_ok; [|lra|lra]. congr Ok. rewrite -[RHS]map_id. apply: eq_map => row. rewrite /tune_row /=.
  case: eqP => [_|/eqP]; first exact: clip_none. rewrite -lt0n => H.
  rewrite -[RHS]map_id. apply/eq_in_map => x Hx. rewrite clip_into. case: x Hx => //= v Hv. congr Some.
  rewrite -mem_values in Hv.
  have H1 := is_quantile_0 H (quant_ok (l := values row) (q := 0%re) ltac:(lra) H) Hv.
  have H2 := is_quantile_1 H (quant_ok (l := values row) (q := 1%re) ltac:(lra) H) Hv.
  rewrite Rmin_left ?Rmax_right; try lra. rewrite /into. by case: RltbP => ?; [lra|]; case: RltbP => ?; [lra|].
Qed.
(** How many entries of a row change. *)
Lemma count_pmap (P : pred R) row : count P (values row) = count (fun x => if x is Some v then P v else false) row.
Proof. by elim: row => //= -[v|] row IH; rewrite /values /= -/(values row) IH. Qed.
Lemma tune_share lower upper rows out t a b : tune_returns lower upper rows = Ok out -> (lower <= upper)%re ->
  let row := nth [::] rows t in is_quantile (values row) lower a -> is_quantile (values row) upper b -> 
  (t < size rows)%N ->
  (a <= b)%re /\
  (INR (count (fun x => if x is Some v then Rltb v a else false) row) < lower * (INR (size (values row)) - 1) + 1)%re /\
  (INR (count (fun x => if x is Some v then Rltb b v else false) row) < (1 - upper) * (INR (size (values row)) - 1) + 1)%re.
Proof.
  move=> H Hlu row Ha Hb Ht. move/tune_inv: H => [[Hs _]|[Hl [Hu _]]]; first by rewrite Hs in Ht.
  rewrite -!count_pmap. split; last first.
  - split; [exact: below_quantile Ha|exact: above_quantile Hb].
  - rewrite -(quantE Hl Ha) -(quantE Hu Hb). apply: quant_mono; [lra|lra|lra|].
    case: Ha => k [f [lo [hi [_ [_ [Hlo _]]]]]]. exact: leq_trans (kth_lt_size Hlo).
Qed.

(** ** tune_returns2 *)
Definition tune2_row (row : seq (option R)) : seq R :=
  let f q := if size (values row) == 0%N then None else Some (quant (values row) q) in
  [seq (if gt_opt x (f (9 / 10)%re) then 1%re else if gt_opt (f (1 / 10)%re) x then (- 1)%re else 0%re) | x <- row].
Lemma tune2_ok rows : tune_returns2 rows = Ok [seq tune2_row row | row <- rows].
Proof. apply: mapM_ok => row _. rewrite !quantileE //; lra. Qed.
Lemma gt_none_r x : gt_opt x None = false. Proof. by case: x. Qed.
Lemma tune2_values rows : exists out, tune_returns2 rows = Ok out /\ [seq size r | r <- out] = [seq size r | r <- rows] /\
  forall t, (t < size rows)%N -> let row := nth [::] rows t in
    (values row = [::] /\ nth [::] out t = nseq (size row) 0%re) \/
    exists a b, is_quantile (values row) (1 / 10) a /\ is_quantile (values row) (9 / 10) b /\ (a <= b)%re /\
      forall i, (i < size row)%N -> match cell None rows t i with
        | None => cell 0%re out t i = 0%re
        | Some v => ((v < a)%re /\ cell 0%re out t i = (- 1)%re) \/ ((b < v)%re /\ cell 0%re out t i = 1%re) \/
                    ((a <= v <= b)%re /\ cell 0%re out t i = 0%re)
        end.
Proof.
  eexists. split; [exact: tune2_ok|]. split. { rewrite -map_comp. apply: eq_map => row /=. by rewrite size_map. }
  move=> t Ht row. rewrite /cell (nth_map [::]) // -/row /tune2_row.
  case: eqP => [H|/eqP]; [left|rewrite -lt0n => H; right].
  - split; [exact: size0nil|]. apply: (@eq_from_nth _ 0%re); rewrite size_map ?size_nseq // => i Hi.
    by rewrite (nth_map None) // gt_none_r /= nth_nseq Hi.
  - exists (quant (values row) (1 / 10)), (quant (values row) (9 / 10)). 
    have Hab : (quant (values row) (1 / 10) <= quant (values row) (9 / 10))%re by apply: quant_mono => //; lra.
    split; [apply: quant_ok => //; lra|]. split; [apply: quant_ok => //; lra|]. split => // i Hi.
    rewrite (nth_map None) //. case: (nth None row i) => [v|] //=.
    case: RltbP => H1; [right; left; by split|]. case: RltbP => H2; [left; by split|]. right; right. split => //. lra.
Qed.
Lemma tune2_counts rows out t : tune_returns2 rows = Ok out -> (t < size rows)%N -> let n := size (values (nth [::] rows t)) in
  let ones := count (pred1 1%re) (nth [::] out t) in let minus := count (pred1 (- 1)%re) (nth [::] out t) in (0 < n)%N ->
  (INR ones < (INR n - 1) / 10 + 1)%re /\ (INR minus < (INR n - 1) / 10 + 1)%re /\
  (uniq (values (nth [::] rows t)) -> ((INR n - 1) / 10 <= INR ones)%re /\ ((INR n - 1) / 10 <= INR minus)%re).
Proof.
  rewrite tune2_ok => [[<-]] Ht. rewrite (nth_map [::]) //. move: (nth [::] rows t) => row n ones minus Hn.
  have Ha : is_quantile (values row) (1 / 10) (quant (values row) (1 / 10)) by apply: quant_ok => //; lra.
  have Hb : is_quantile (values row) (9 / 10) (quant (values row) (9 / 10)) by apply: quant_ok => //; lra.
  have Hab : (quant (values row) (1 / 10) <= quant (values row) (9 / 10))%re by apply: quant_mono => //; lra.
  have E : (size (values row) == 0%N) = false by apply/negbTE; rewrite -lt0n.
  have -> : ones = count (fun v => Rltb (quant (values row) (9 / 10)) v) (values row).
  { rewrite /ones /tune2_row E count_map count_pmap. apply: eq_count => -[v|] /=.
    - case: RltbP => H1; first by rewrite eqxx. case: RltbP => H2; apply/negbTE/eqP; lra.
    - by apply/negbTE/eqP; lra. }
  have -> : minus = count (fun v => Rltb v (quant (values row) (1 / 10))) (values row).
  { rewrite /minus /tune2_row E count_map count_pmap. apply: eq_count => -[v|] /=.
    - case: RltbP => H1; case: RltbP => H2; try (by rewrite eqxx); try lra; apply/negbTE/eqP; lra.
    - by apply/negbTE/eqP; lra. }
  split; [have := above_quantile Hb; rewrite -/n; lra|]. split; [have := below_quantile Ha; rewrite -/n; lra|].
  move=> Hu. split; [have := above_quantile_uniq Hu Hb; rewrite -/n; lra|have := below_quantile_uniq Hu Ha; rewrite -/n; lra].
Qed.
Lemma tune2_any_sign rows out t : tune_returns2 rows = Ok out -> (t < size rows)%N ->
  uniq (values (nth [::] rows t)) -> (1 < size (values (nth [::] rows t)))%N ->
  (exists i v, cell None rows t i = Some v /\ cell 0%re out t i = 1%re /\ forall w, w \in values (nth [::] rows t) -> (w <= v)%re) /\
  (exists i v, cell None rows t i = Some v /\ cell 0%re out t i = (- 1)%re /\ forall w, w \in values (nth [::] rows t) -> (v <= w)%re).
Proof.
  move=> H Ht Hu Hn. move: (tune2_counts H Ht (ltnW Hn)) => /= [_ [_ /(_ Hu) [H1 H2]]].
  have Hn' : (1 < INR (size (values (nth [::] rows t))))%re by rewrite -[1%re]/(INR 1); apply: lt_INR; exact/ltP.
  move: H. rewrite tune2_ok => [[E]]. rewrite -E (nth_map [::]) // in H1 H2. rewrite -E /cell (nth_map [::]) //. clear E.
  move: (nth [::] rows t) Hu Hn Hn' H1 H2 => row Hu Hn Hn' H1 H2.
  have Hn0 := ltnW Hn.
  have E : (size (values row) == 0%N) = false by apply/negbTE; rewrite -lt0n.
  have Hmax := kth_sort (l := values row) (k := (size (values row)).-1) ltac:(by rewrite prednK).
  have Hmin := kth_sort (l := values row) (k := 0) Hn0.
  set M := nth 0%re _ _ in Hmax. set m := nth 0%re _ _ in Hmin.
  have HM w : w \in values row -> (w <= M)%re.
  { move=> Hw. apply: Rnot_lt_le => Hc. case: Hmax => _ [_]. rewrite -ltnS prednK // ltnS. apply/negP. rewrite -ltnNge.
    rewrite -(count_predC (fun y => Rleb y M) (values row)) -[X in (X < _)%N]addn0 ltn_add2l -has_count. apply/hasP. exists w => //=. by apply/RlebP; lra. }
  have Hm w : w \in values row -> (m <= w)%re.
  { move=> Hw. apply: Rnot_lt_le => Hc. case: Hmin => _ [H _]. move: H. rewrite leqNgt -has_count. move/negP. apply. apply/hasP. exists w => //. exact/RltbP. }
  have [c1 c2] : (exists x, x \in values row /\ (quant (values row) (9 / 10) < x)%re) /\ (exists x, x \in values row /\ (x < quant (values row) (1 / 10))%re).
  { have Ha : is_quantile (values row) (1 / 10) (quant (values row) (1 / 10)) by apply: quant_ok => //; lra.
    have Hb : is_quantile (values row) (9 / 10) (quant (values row) (9 / 10)) by apply: quant_ok => //; lra.
    have P (p : pred R) : (0 < INR (count p (values row)))%re -> exists x, x \in values row /\ p x.
    { move=> Hp. have : has p (values row). { rewrite has_count. apply/ltP. apply: INR_lt. exact: Hp. } move/hasP => [x ? ?]. by exists x. }
    split.
    - have := above_quantile_uniq Hu Hb => Hc. have [|x [Hx /RltbP ?]] := P (fun y => Rltb (quant (values row) (9 / 10)) y); [apply: Rlt_le_trans Hc; apply: Rmult_lt_0_compat; [lra|exact: Rlt_Rminus Hn']|]. by exists x.
    - have := below_quantile_uniq Hu Ha => Hc. have [|x [Hx /RltbP ?]] := P (fun y => Rltb y (quant (values row) (1 / 10))); [apply: Rlt_le_trans Hc; apply: Rmult_lt_0_compat; [lra|exact: Rlt_Rminus Hn']|]. by exists x. }
  have Hab : (quant (values row) (1 / 10) <= quant (values row) (9 / 10))%re by apply: quant_mono => //; lra.
  have Hi x : x \in values row -> (index (Some x) row < size row)%N by rewrite index_mem mem_values.
  have Hx x : x \in values row -> nth None row (index (Some x) row) = Some x by rewrite mem_values; exact: nth_index.
  split.
  - case: c1 => x [Hx1 Hx2]. have HxM := HM _ Hx1. have [HinM _] := Hmax.
    exists (index (Some M) row), M. split; [exact: Hx|]. split; [|exact: HM].
    rewrite /tune2_row E (nth_map None) ?Hx ?Hi //=. case: RltbP => //. lra.
  - case: c2 => x [Hx1 Hx2]. have Hxm := Hm _ Hx1. have [Hinm _] := Hmin.
    exists (index (Some m) row), m. split; [exact: Hx|]. split; [|exact: Hm].
    rewrite /tune2_row E (nth_map None) ?Hx ?Hi //=. case: RltbP => ?; [lra|]. case: RltbP => //. lra.
Qed.
Lemma tune2_units c d rows : (0 < c)%re -> tune_returns2 (map_table (fun x => c * x + d)%re rows) = tune_returns2 rows.
Proof.
  move=> Hc. rewrite !tune2_ok /map_table -!map_comp. congr Ok. apply: eq_map => row /=.
  rewrite /tune2_row values_map !size_map -!map_comp. case: eqP => [H|/eqP]; first by apply: eq_map => -[].
  rewrite -lt0n => H. apply: eq_map => x /=.
  have Q q : (0 <= q <= 1)%re -> quant [seq (c * y + d)%re | y <- values row] q = (c * quant (values row) q + d)%re.
  { move=> Hq. apply: quantE => //. apply: is_quantile_affine => //. exact: quant_ok. }
  rewrite !Q; [|lra|lra]. case: x => [v|] //=.
  have -> : Rltb (c * quant (values row) (9 / 10) + d) (c * v + d) = Rltb (quant (values row) (9 / 10)) v by apply/RltbP/RltbP => ?; nra.
  by have -> : Rltb (c * v + d) (c * quant (values row) (1 / 10) + d) = Rltb v (quant (values row) (1 / 10)) by apply/RltbP/RltbP => ?; nra.
Qed.
Lemma tune2_mirror rows out : tune_returns2 rows = Ok out -> tune_returns2 (map_table Ropp rows) = Ok [seq [seq (- x)%re | x <- row] | row <- out].
Proof.
  rewrite !tune2_ok => [[<-]]. rewrite /map_table -!map_comp. congr Ok. apply: eq_map => row /=.
  rewrite /tune2_row values_map !size_map -!map_comp. case: eqP => [H|/eqP].
  { apply: eq_map => -[v|] /=; ring. }
  rewrite -lt0n => H. apply: eq_map => x /=.
  have Q q q' : (0 <= q <= 1)%re -> (q' = 1 - q)%re -> quant [seq Ropp y | y <- values row] q' = (- quant (values row) q)%re.
  { move=> Hq ->. apply: quantE; [lra|]. apply: is_quantile_mirror. exact: quant_ok. }
  have Hab : (quant (values row) (1 / 10) <= quant (values row) (9 / 10))%re by apply: quant_mono => //; lra.
  rewrite (Q (1 / 10)%re) ?(Q (9 / 10)%re); try lra. case: x => [v|] /=; last ring.
  repeat (case: RltbP => ?); lra.
Qed.
