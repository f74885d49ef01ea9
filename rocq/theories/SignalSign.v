(** * get_sign_prediction: proofs. *)
From Coq Require Import Reals Lra ZArith List Lia.
Set Warnings "-notation-overridden,-ambiguous-paths".
From mathcomp Require Import all_ssreflect all_algebra.
From Verif Require Import RStruct MatR Num Py ListFacts RetComb Signals SpecSignals SignalQuant.
Set Implicit Arguments.
Unset Strict Implicit.
Unset Printing Implicit Defensive.
Import GRing.Theory.
Local Open Scope ring_scope.
Delimit Scope R_scope with re.

Lemma ReqbP x y : reflect (x = y) (Reqb x y).
Proof. rewrite /Reqb. case: Req_EM_T => H; by constructor. Qed.

(** Counting positions instead of values. *)
Lemma count_pos A (d : A) (p : pred A) r : count p r = count (fun i => p (nth d r i)) (iota 0 (size r)).
Proof.
  have E : [seq nth d r i | i <- iota 0 (size r)] = r by rewrite map_nth_iota0 // take_size.
  by rewrite -{1}E count_map.
Qed.
(** If a duplicate-free list of positions satisfies p, there are at least that many. *)
Lemma count_ge n (p : pred nat) (l : seq nat) : uniq l -> (forall i, i \in l -> (i < n)%N /\ p i) -> (size l <= count p (iota 0 n))%N.
Proof.
  move=> Hu H. rewrite -size_filter. apply: uniq_leq_size => // i Hi. have [H1 H2] := H _ Hi.
  by rewrite mem_filter H2 mem_iota.
Qed.
(** If all positions with p lie in l, there are at most that many. *)
Lemma count_le n (p : pred nat) (l : seq nat) : (forall i, (i < n)%N -> p i -> i \in l) -> (count p (iota 0 n) <= size l)%N.
Proof.
  move=> H. rewrite -size_filter. apply: uniq_leq_size; first exact: filter_uniq (iota_uniq _ _).
  move=> i. rewrite mem_filter mem_iota /= add0n => /andP [Hp Hi]. exact: H.
Qed.

Section Sort.
  Context (argsort : seq (option R) -> seq nat) (Hsort : sorts argsort).
  Implicit Types (r : seq (option R)) (i j : nat).
  Lemma as_perm r : perm_eq (argsort r) (iota 0 (size r)). Proof. exact: (Hsort r).1. Qed.
  Lemma as_uniq r : uniq (argsort r). Proof. by rewrite (perm_uniq (as_perm r)) iota_uniq. Qed.
  Lemma as_size r : size (argsort r) = size r. Proof. by rewrite (perm_size (as_perm r)) size_iota. Qed.
  Lemma as_mem r i : (i \in argsort r) = (i < size r)%N. Proof. by rewrite (perm_mem (as_perm r)) mem_iota. Qed.
  (** Positions before the cut k have values at most those of the positions behind it. *)
  Lemma as_cut r k i j : i \in take k (argsort r) -> (j < size r)%N -> j \notin take k (argsort r) -> leo (nth None r i) (nth None r j).
  Proof.
    move=> Hi Hj Hn. have : j \in argsort r by rewrite as_mem.
    rewrite -{1}(cat_take_drop k (argsort r)) mem_cat (negbTE Hn) /=. move/(nthP 0%N) => [b Hb <-].
    move: Hi => /(nthP 0%N) [a Ha <-]. rewrite size_take in Ha. rewrite size_drop in Hb.
    have Hak : (a < k)%N. { by move: Ha; case: ifP => // /negbT; rewrite -leqNgt => H Ha; exact: leq_trans Ha H. }
    rewrite nth_take // nth_drop. apply: (Hsort r).2.
    - exact: leq_trans (ltnW Hak) (leq_addr _ _).
    - by rewrite ltn_subRL as_size in Hb.
  Qed.

  Section Row.
    Context (r : seq (option R)) (Hn : (10 <= size r)%N).
    Notation n := (size r).
    Definition top : seq nat := drop (n - 10) (argsort r).
    Definition r1 : seq (option R) := update_at top (fun x => Some (if gt_opt x (Some 0%re) then 1%re else 0%re)) r.
    Definition low : seq nat := take 10 (argsort r1).
    Definition r2 : seq (option R) := update_at low (fun x => Some (if gt_opt (Some 0%re) x then (- 1)%re else 0%re)) r1.
    Definition final (x : option R) : option R := if x is Some v then (if Reqb (Rabs v) 1 then x else Some 0%re) else Some 0%re.
    Definition res_row : seq (option R) := [seq final x | x <- r2].
    Lemma sign_rowE : sign_row argsort r = Ok res_row.
    Proof. by rewrite /sign_row ltnNge Hn. Qed.
    Lemma size_update idx f l : size (update_at idx f l) = size l.
    Proof. by rewrite size_map size_iota. Qed.
    Lemma nth_update idx f l i : (i < size l)%N -> nth None (update_at idx f l) i = if i \in idx then f (nth None l i) else nth None l i.
    Proof. move=> Hi. by rewrite (nth_map 0%N) ?size_iota // nth_iota. Qed.
    Lemma size_r1 : size r1 = n. Proof. exact: size_update. Qed.
    Lemma size_r2 : size r2 = n. Proof. by rewrite size_update size_r1. Qed.
    Lemma size_res : size res_row = n. Proof. by rewrite size_map size_r2. Qed.
    Lemma size_top : size top = 10%N. Proof. by rewrite size_drop as_size subKn. Qed.
    Lemma size_low : size low = 10%N.
    Proof. rewrite size_take as_size size_r1. move: Hn. rewrite leq_eqVlt => /orP [/eqP <-|->] //. Qed.
    Lemma uniq_top : uniq top. Proof. exact: drop_uniq (as_uniq r). Qed.
    Lemma uniq_low : uniq low. Proof. exact: take_uniq (as_uniq r1). Qed.
    Lemma top_lt i : i \in top -> (i < n)%N. Proof. by move/mem_drop; rewrite as_mem. Qed.
    Lemma low_lt i : i \in low -> (i < n)%N. Proof. by move/mem_take; rewrite as_mem size_r1. Qed.
    Lemma top_ge i j : i \in top -> (j < n)%N -> j \notin top -> leo (nth None r j) (nth None r i).
    Proof.
      move=> Hi Hj Hnj. have Hjt : j \in take (n - 10) (argsort r).
      { have : j \in argsort r by rewrite as_mem. by rewrite -{1}(cat_take_drop (n - 10) (argsort r)) mem_cat orbC (negbTE Hnj). }
      apply: (as_cut Hjt); [exact: top_lt|]. apply/negP => Hit.
      have := as_uniq r. rewrite -{1}(cat_take_drop (n - 10) (argsort r)) cat_uniq => /and3P [_ /hasPn H _]. by have := H _ Hi; rewrite /= Hit.
    Qed.
    Lemma low_le i j : i \in low -> (j < n)%N -> j \notin low -> leo (nth None r1 i) (nth None r1 j).
    Proof. move=> Hi Hj Hnj. apply: as_cut Hi _ Hnj. by rewrite size_r1. Qed.
    Lemma r1_top i : i \in top -> nth None r1 i = Some (if gt_opt (nth None r i) (Some 0%re) then 1%re else 0%re).
    Proof. move=> Hi. by rewrite nth_update ?top_lt // Hi. Qed.
    Lemma r1_rest i : (i < n)%N -> i \notin top -> nth None r1 i = nth None r i.
    Proof. move=> Hi H. by rewrite nth_update // (negbTE H). Qed.
    Lemma r2_low i : i \in low -> nth None r2 i = Some (if gt_opt (Some 0%re) (nth None r1 i) then (- 1)%re else 0%re).
    Proof. move=> Hi. by rewrite nth_update ?size_r1 ?low_lt // Hi. Qed.
    Lemma r2_rest i : (i < n)%N -> i \notin low -> nth None r2 i = nth None r1 i.
    Proof. move=> Hi H. by rewrite nth_update ?size_r1 // (negbTE H). Qed.
    Lemma resE i : (i < n)%N -> nth None res_row i = final (nth None r2 i).
    Proof. move=> Hi. by rewrite (nth_map None) ?size_r2. Qed.
    Lemma final_one v : final v = Some 1%re -> v = Some 1%re.
    Proof. case: v => [v|] /=; [case: ReqbP => [_ //|_ [H]]|case=> H]; lra. Qed.
    Lemma final_minus v : final v = Some (- 1)%re -> v = Some (- 1)%re.
    Proof. case: v => [v|] /=; [case: ReqbP => [_ //|_ [H]]|case=> H]; lra. Qed.
    Lemma final_1 : final (Some 1%re) = Some 1%re.
    Proof. rewrite /= Rabs_R1. by case: ReqbP. Qed.
    Lemma final_m1 : final (Some (- 1)%re) = Some (- 1)%re.
    Proof. rewrite /= Rabs_Ropp Rabs_R1. by case: ReqbP. Qed.
    Lemma final_0 : final (Some 0%re) = Some 0%re.
    Proof. rewrite /= Rabs_R0. by case: ReqbP. Qed.
    Lemma final_values v : final v = Some 1%re \/ final v = Some (- 1)%re \/ final v = Some 0%re.
    Proof.
      case: v => [v|] /=; [|by right; right]. case: ReqbP => [H|_]; [|by right; right].
      move: H. rewrite /Rabs. case: Rcase_abs => ? H; [right; left|left]; congr Some; lra.
    Qed.
    Lemma res_values i : (i < n)%N -> let v := nth None res_row i in v = Some 1%re \/ v = Some (- 1)%re \/ v = Some 0%re.
    Proof. move=> Hi. rewrite /= resE //. exact: final_values. Qed.
    Lemma others_size : size [seq i <- iota 0 n | i \notin top] = (n - 10)%N.
    Proof.
      have := count_predC (fun i => i \in top) (iota 0 n). rewrite size_iota => H. rewrite size_filter.
      rewrite -[in RHS]H. have -> : count (fun i => i \in top) (iota 0 n) = 10%N.
      { rewrite -size_top. apply/eqP. rewrite eqn_leq count_le // count_ge //; [exact: uniq_top|].
        move=> i Hi. by split; [exact: top_lt|]. }
      by rewrite addKn.
    Qed.
    (** Never more than n - 10 of each sign. *)
    Lemma one_not_low i : (i < n)%N -> nth None res_row i = Some 1%re -> i \notin low.
    Proof.
      move=> Hi. rewrite resE // => /final_one H. apply/negP => Hl. move: H. rewrite r2_low //. case: ifP => _ [H]; lra.
    Qed.
    Lemma few_ones : (count (pred1 (Some 1%re)) res_row <= n - 10)%N.
    Proof.
      rewrite (count_pos None) size_res. 
      have -> : (n - 10 = size [seq i <- iota 0 n | i \notin low])%N.
      { have := count_predC (fun i => i \in low) (iota 0 n). rewrite size_iota => H. rewrite size_filter.
        rewrite -[in LHS]H. have -> : count (fun i => i \in low) (iota 0 n) = 10%N.
        { rewrite -size_low. apply/eqP. rewrite eqn_leq count_le // count_ge //; [exact: uniq_low|].
          move=> i Hi. by split; [exact: low_lt|]. }
        by rewrite addKn. }
      apply: count_le => i Hi /eqP H. rewrite mem_filter mem_iota /= add0n Hi andbT. exact: one_not_low.
    Qed.
    Lemma r1_neg i : (i < n)%N -> gt_opt (Some 0%re) (nth None r1 i) -> i \notin top.
    Proof. move=> Hi H. apply/negP => Ht. move: H. rewrite r1_top //=. case: ifP => _ /RltbP; lra. Qed.
    Lemma gt_leoN x y : gt_opt x y -> ~~ leo x y.
    Proof. by case: x => [x|]; case: y => [y|] //= /RltbP H; apply/RlebP; lra. Qed.
  End Row.

  Section SmallRow.
    Context (r : seq (option R)) (Hn : (20 <= size r)%N) (Hs : small r).
    Notation n := (size r).
    Notation tp := (top r). Notation lw := (low r). Notation q1 := (r1 r). Notation out := (res_row r).
    Lemma Hn10 : (10 <= n)%N. Proof. exact: leq_trans Hn. Qed.
    Local Hint Resolve Hn10 : core.
    Lemma small_nth i v : (i < n)%N -> nth None r i = Some v -> (-1 < v < 1)%re.
    Proof. move=> Hi H. apply: Hs. rewrite -H. exact: mem_nth. Qed.
    (** A positive forecast among the ten largest is not among the ten smallest after the first step. *)
    Lemma top_pos_not_low i : i \in tp -> gt_opt (nth None r i) (Some 0%re) -> i \notin lw.
    Proof.
      move=> Hi Hp. apply/negP => Hl. have Hin := top_lt Hi.
      have H1 : nth None q1 i = Some 1%re by rewrite r1_top // Hp.
      have Hsub : {subset i :: [seq j <- iota 0 n | j \notin tp] <= lw}.
      { move=> j. rewrite inE => /orP [/eqP -> //|]. rewrite mem_filter mem_iota /= add0n => /andP [Hjt Hj].
        apply/negPn/negP => Hjl. have := low_le Hl Hj Hjl. rewrite H1 r1_rest //.
        have := top_ge Hi Hj Hjt. case E : (nth None r j) => [v|] /=.
        - move=> _ /RlebP. have := small_nth Hj E. lra.
        - by case: (nth None r i) Hp. }
      have Hu : uniq (i :: [seq j <- iota 0 n | j \notin tp]).
      { rewrite /= filter_uniq ?iota_uniq // andbT mem_filter Hi. by []. }
      have := uniq_leq_size Hu Hsub. rewrite size_low //= others_size //. move/(leq_trans (n := (n - 10).+1)) : (leqnn (n-10).+1).
      move=> _. apply/negP. rewrite -ltnNge ltnS. by rewrite leq_subRL // addnn.
    Qed.
    Lemma out_one i : (i < n)%N -> (nth None out i = Some 1%re <-> i \in tp /\ gt_opt (nth None r i) (Some 0%re)).
    Proof.
      move=> Hi. split.
      - move=> H. have Hl := one_not_low Hi H. move: H. rewrite resE // => /final_one. rewrite r2_rest //.
        case Ht : (i \in tp).
        + rewrite r1_top //. case: ifP => // _ [H]. lra.
        + rewrite r1_rest ?Ht // => H. have := small_nth Hi H. lra.
      - move=> [Ht Hp]. rewrite resE // r2_rest //; last exact: top_pos_not_low. rewrite r1_top // Hp. exact: final_1.
    Qed.
    Lemma out_minus i : (i < n)%N -> (nth None out i = Some (- 1)%re <-> i \in lw /\ i \notin tp /\ gt_opt (Some 0%re) (nth None r i)).
    Proof.
      move=> Hi. split.
      - rewrite resE // => /final_minus. case Hl : (i \in lw).
        + rewrite r2_low //. case: ifP => [Hp _|_ [H]]; [|lra]. have Ht := r1_neg Hi Hp. by rewrite r1_rest // in Hp.
        + rewrite r2_rest ?Hl //. case Ht : (i \in tp).
          * rewrite r1_top //. case: ifP => _ [H]; lra.
          * rewrite r1_rest ?Ht // => H. have := small_nth Hi H. lra.
      - move=> [Hl [Ht Hp]]. rewrite resE // r2_low // r1_rest // Hp. exact: final_m1.
    Qed.

    Lemma one_sound i : (i < n)%N -> nth None out i = Some 1%re ->
      gt_opt (nth None r i) (Some 0%re) /\ (count (fun x => ~~ leo x (nth None r i)) r < 10)%N.
    Proof.
      move=> Hi /(out_one Hi) [Ht Hp]. split => //. rewrite (count_pos None) -(size_top Hn10).
      have Hsz : size tp = (size (rem i tp)).+1 by rewrite size_rem // prednK // size_top.
      rewrite Hsz ltnS. apply: count_le => j Hj Hx. rewrite (mem_rem_uniq i (uniq_top r)) inE. apply/andP. split.
      - apply/negP => /eqP E. move: Hx. rewrite E. by case: (nth None r i) Hp => [v|] //= _ /negP; case; apply/RlebP; lra.
      - apply/negPn/negP => Hjt. by have := top_ge Ht Hj Hjt; rewrite (negbTE Hx).
    Qed.
    Lemma one_complete i : (i < n)%N -> gt_opt (nth None r i) (Some 0%re) -> (count (fun x => leo (nth None r i) x) r <= 10)%N ->
      nth None out i = Some 1%re.
    Proof.
      move=> Hi Hp Hc. apply/(out_one Hi). split => //. apply/negPn/negP => Ht.
      have := count_ge (n := n) (p := fun j => leo (nth None r i) (nth None r j)) (l := i :: tp) _ _.
      rewrite /= (negbTE Ht) uniq_top /= size_top //. move=> H. 
      have : (10 < count (fun x => leo (nth None r i) x) r)%N.
      { rewrite (count_pos None). apply: H => // j. rewrite inE => /orP [/eqP ->|Hj]; split => //.
        - case: (nth None r i) => [v|] //=. apply/RlebP. lra.
        - exact: top_lt.
        - exact: top_ge. }
      by rewrite ltnNge Hc.
    Qed.
    Lemma leo_gt_neg x y : leo x y -> gt_opt (Some 0%re) y -> gt_opt (Some 0%re) x.
    Proof. case: x => [x|]; case: y => [y|] //= /RlebP H /RltbP H2. apply/RltbP. lra. Qed.
    Lemma minus_sound i : (i < n)%N -> nth None out i = Some (- 1)%re ->
      gt_opt (Some 0%re) (nth None r i) /\ (count (fun x => ~~ leo (nth None r i) x) r < 10)%N.
    Proof.
      move=> Hi /(out_minus Hi) [Hl [Ht Hp]]. split => //. rewrite (count_pos None) -(size_low Hn10).
      have Hsz : size lw = (size (rem i lw)).+1 by rewrite size_rem // prednK // size_low.
      rewrite Hsz ltnS. apply: count_le => j Hj Hx. rewrite (mem_rem_uniq i (uniq_low r)) inE. apply/andP. split.
      - apply/negP => /eqP E. move: Hx. rewrite E. by case: (nth None r i) Hp => [v|] //= _ /negP; case; apply/RlebP; lra.
      - have Hjt : j \notin tp. { apply/negP => Hjt. by have := top_ge Hjt Hi Ht; rewrite (negbTE Hx). }
        apply/negPn/negP => Hjl. have := low_le Hl Hj Hjl. by rewrite !r1_rest // (negbTE Hx).
    Qed.
    Lemma minus_complete i : (i < n)%N -> gt_opt (Some 0%re) (nth None r i) -> (count (fun x => leo x (nth None r i)) r <= 10)%N ->
      nth None out i = Some (- 1)%re.
    Proof.
      move=> Hi Hp Hc.
      have Hii : leo (nth None r i) (nth None r i) by case: (nth None r i) => [v|] //=; apply/RlebP; lra.
      have big l : uniq l -> i \notin l -> (10 <= size l)%N -> (forall j, j \in l -> (j < n)%N /\ leo (nth None r j) (nth None r i)) -> False.
      { move=> Hu Hni Hsz H. have := count_ge (n := n) (p := fun j => leo (nth None r j) (nth None r i)) (l := i :: l).
        rewrite /= Hni Hu /= -(count_pos None (fun x => leo x (nth None r i))) => /(_ isT) H1. have : ((size l).+1 <= 10)%N.
        { apply: leq_trans Hc. apply: H1 => j. rewrite inE => /orP [/eqP -> //|]. exact: H. }
        by rewrite ltnNge Hsz. }
      have Ht : i \notin tp.
      { apply/negP => Ht. apply: (big [seq j <- iota 0 n | j \notin tp]).
        - by rewrite filter_uniq ?iota_uniq.
        - by rewrite mem_filter Ht.
        - by rewrite others_size // leq_subRL // addnn.
        - move=> j. rewrite mem_filter mem_iota /= add0n => /andP [Hjt Hj]. split => //. exact: top_ge. }
      apply/(out_minus Hi). split; [|by split]. apply/negPn/negP => Hl.
      apply: (big lw (uniq_low r) Hl); first by rewrite size_low.
      move=> j Hj. have Hjn := low_lt Hj. split => //. have Hjl := low_le Hj Hi Hl. rewrite (r1_rest Hi Ht) in Hjl.
      have Hjneg := leo_gt_neg Hjl Hp. have Hjt := r1_neg Hjn Hjneg. by rewrite r1_rest in Hjl.
    Qed.

    (** Numbers of signals. *)
    Definition posb (x : option R) : bool := if x is Some v then Rltb 0 v else false.
    Definition negb' (x : option R) : bool := if x is Some v then Rltb v 0 else false.
    Lemma posE x : gt_opt x (Some 0%re) = posb x. Proof. by case: x. Qed.
    Lemma negE x : gt_opt (Some 0%re) x = negb' x. Proof. by case: x. Qed.
    Lemma Some_eqP (x : option R) v : reflect (x = Some v) (x == Some v). Proof. exact: eqP. Qed.
    Lemma count_in_top (p : pred nat) : count (fun i => (i \in tp) && p i) (iota 0 n) = count p tp.
    Proof.
      rewrite -[RHS]size_filter. apply/eqP. rewrite eqn_leq. apply/andP. split.
      - apply: count_le => i Hi /andP [H1 H2]. by rewrite mem_filter H2.
      - apply: count_ge; first exact: filter_uniq (uniq_top r). move=> i. rewrite mem_filter => /andP [H1 H2].
        split; [exact: top_lt|by rewrite H2].
    Qed.
    Lemma ones_count : count (pred1 (Some 1%re)) out = minn (10 - n_nan r) (n_pos r).
    Proof.
      rewrite (count_pos None) size_res.
      have E : count (fun i => pred1 (Some 1%re) (nth None out i)) (iota 0 n) = count (fun i => posb (nth None r i)) tp.
      { rewrite -count_in_top. apply: eq_in_count => i. rewrite mem_iota /= add0n => Hi.
        apply/eqP/andP => [/(out_one Hi) [H1 H2]|[H1 H2]]; [by rewrite H1 -posE|]. apply/(out_one Hi). by rewrite posE. }
      rewrite E.
      have Ep : n_pos r = count (fun i => posb (nth None r i)) (iota 0 n) by rewrite /n_pos (count_pos None).
      have En : n_nan r = count (fun i => ~~ isSome (nth None r i)) (iota 0 n) by rewrite /n_nan (count_pos None).
      have top_le_pos : (count (fun i => posb (nth None r i)) tp <= n_pos r)%N.
      { rewrite Ep -count_in_top. apply: sub_count => i /andP []. by []. }
      (* a position outside the ten largest bounds all of them from below *)
      case Hp : (has (fun i => (i \notin tp) && posb (nth None r i)) (iota 0 n)).
      - move/hasP: Hp => [j]. rewrite mem_iota /= add0n => Hj /andP [Hjt Hjp].
        have Htop i : i \in tp -> posb (nth None r i) = isSome (nth None r i).
        { move=> Hi. have := top_ge Hi Hj Hjt. move: Hjp. case: (nth None r j) => [v|] //= /RltbP Hv.
          case: (nth None r i) => [w|] //= /RlebP Hw. apply/RltbP. lra. }
        have E2 : count (fun i => posb (nth None r i)) tp = (10 - count (fun i => ~~ isSome (nth None r i)) tp)%N.
        { rewrite -(size_top Hn10) -(count_predC (fun i => ~~ isSome (nth None r i)) tp) addKn. apply: eq_in_count => i Hi /=.
          by rewrite negbK Htop. }
        case Hx : (has (fun i => (i \notin tp) && ~~ isSome (nth None r i)) (iota 0 n)).
        + move/hasP: Hx => [k]. rewrite mem_iota /= add0n => Hk /andP [Hkt Hkn].
          have Hall i : i \in tp -> ~~ isSome (nth None r i).
          { move=> Hi. have := top_ge Hi Hk Hkt. case: (nth None r k) Hkn => // _. by case: (nth None r i). }
          have E3 : count (fun i => ~~ isSome (nth None r i)) tp = 10%N.
          { rewrite -(size_top Hn10). apply/eqP. rewrite -all_count. exact/allP. }
          have Hge : (10 <= n_nan r)%N. { rewrite En -E3 -count_in_top. apply: sub_count => i /andP []. by []. }
          move: Hge. rewrite -subn_eq0 => /eqP ->. by rewrite min0n E2 E3.
        + have E3 : count (fun i => ~~ isSome (nth None r i)) tp = n_nan r.
          { rewrite En -count_in_top. apply: eq_in_count => i Hi. case Hit : (i \in tp) => //=.
            move/hasPn: (negbT Hx) => /(_ i Hi). rewrite Hit /= negbK => ->. by []. }
          rewrite E2 E3 in top_le_pos *. by rewrite (minn_idPl top_le_pos).
      - have Hin i : (i < n)%N -> posb (nth None r i) -> i \in tp.
        { move=> Hi Hpi. move/hasPn: (negbT Hp) => /(_ i). rewrite mem_iota /= add0n Hi => /(_ isT). by rewrite Hpi andbT negbK. }
        have E2 : count (fun i => posb (nth None r i)) tp = n_pos r.
        { rewrite Ep -count_in_top. apply: eq_in_count => i. rewrite mem_iota /= add0n => Hi. 
          case Hpi : (posb (nth None r i)); last by rewrite andbF. by rewrite Hin. }
        rewrite E2. symmetry. apply/minn_idPr.
        case: (posnP (n_pos r)) => [-> //|]. rewrite Ep -has_count => /hasP [j]. rewrite mem_iota /= add0n => Hj Hjp.
        have Hjt := Hin _ Hj Hjp.
        have Hnan : count (fun i => ~~ isSome (nth None r i)) tp = n_nan r.
        { rewrite En -count_in_top. apply: eq_in_count => i. rewrite mem_iota /= add0n => Hi. case Hit : (i \in tp) => //=.
          have := top_ge Hjt Hi (negbT Hit). case: (nth None r i) => // . by case: (nth None r j) Hjp. }
        rewrite -Hnan -[X in (_ <= X - _)%N](size_top Hn10) -(count_predC (fun i => ~~ isSome (nth None r i)) tp) addKn -Ep -E2.
        apply: sub_count => i /=. by case: (nth None r i).
    Qed.
    Lemma count_in_low (p : pred nat) : count (fun i => (i \in lw) && p i) (iota 0 n) = count p lw.
    Proof.
      rewrite -[RHS]size_filter. apply/eqP. rewrite eqn_leq. apply/andP. split.
      - apply: count_le => i Hi /andP [H1 H2]. by rewrite mem_filter H2.
      - apply: count_ge; first exact: filter_uniq (uniq_low r). move=> i. rewrite mem_filter => /andP [H1 H2].
        split; [exact: low_lt|by rewrite H2].
    Qed.
    Lemma minus_count : count (pred1 (Some (- 1)%re)) out = minn 10 (n_neg r).
    Proof.
      rewrite (count_pos None) size_res.
      have E : count (fun i => pred1 (Some (- 1)%re) (nth None out i)) (iota 0 n) = count (fun i => negb' (nth None q1 i)) lw.
      { rewrite -count_in_low. apply: eq_in_count => i. rewrite mem_iota /= add0n => Hi.
        apply/eqP/andP => [/(out_minus Hi) [H1 [H2 H3]]|[H1 H2]]; [by rewrite H1 -negE r1_rest|].
        apply/(out_minus Hi). rewrite -negE in H2. have Ht := r1_neg Hi H2. by rewrite r1_rest in H2. }
      rewrite E.
      have En : n_neg r = count (fun i => negb' (nth None r i)) (iota 0 n) by rewrite /n_neg (count_pos None).
      have Hle : (count (fun i => negb' (nth None q1 i)) lw <= n_neg r)%N.
      { rewrite En -count_in_low. rewrite -!size_filter. apply: uniq_leq_size; first exact: filter_uniq (iota_uniq _ _).
        move=> i. rewrite !mem_filter mem_iota /= add0n => /andP [/andP [H1 H2] Hi]. rewrite Hi andbT.
        rewrite -negE in H2. have Ht := r1_neg Hi H2. by rewrite -negE -(r1_rest Hi Ht). }
      case Ha : (all (fun i => negb' (nth None q1 i)) lw).
      - move: Ha. rewrite all_count size_low // => /eqP Ha. rewrite Ha in Hle *. by rewrite (minn_idPl Hle).
      - move/allPn: (negbT Ha) => [k Hk Hkn].
        have Hin i : (i < n)%N -> negb' (nth None q1 i) -> i \in lw.
        { move=> Hi Hp. apply/negPn/negP => Hl. have := low_le Hk Hi Hl => Hlow. rewrite -negE in Hp.
          have := leo_gt_neg Hlow Hp. by rewrite negE (negbTE Hkn). }
        have Hnt i : (i < n)%N -> negb' (nth None r i) -> i \notin tp.
        { move=> Hi Hp. apply/negP => Ht.
          have Hsub : {subset k :: [seq j <- iota 0 n | j \notin tp] <= lw}.
          { move=> j. rewrite inE => /orP [/eqP -> //|]. rewrite mem_filter mem_iota /= add0n => /andP [Hjt Hj].
            apply: Hin => //. rewrite r1_rest //. have := top_ge Ht Hj Hjt. rewrite -!negE in Hp *. move=> Hjl. exact: leo_gt_neg Hjl Hp. }
          have Hkt : k \in tp.
          { apply/negPn/negP => Hkt. have Hkn' := low_lt Hk. have := top_ge Ht Hkn' Hkt. rewrite -negE in Hp. move=> Hkl.
            have := leo_gt_neg Hkl Hp. by rewrite negE -(r1_rest Hkn' Hkt) (negbTE Hkn). }
          have Hu : uniq (k :: [seq j <- iota 0 n | j \notin tp]).
          { rewrite /= filter_uniq ?iota_uniq // andbT mem_filter Hkt. by []. }
          have := uniq_leq_size Hu Hsub. rewrite size_low //= others_size //.
          apply/negP. rewrite -ltnNge ltnS. by rewrite leq_subRL // addnn. }
        have E2 : count (fun i => negb' (nth None q1 i)) lw = n_neg r.
        { rewrite En -count_in_low. apply: eq_in_count => i. rewrite mem_iota /= add0n => Hi.
          apply/andP/idP => [[H1 H2]|H].
          - rewrite -negE in H2. have Ht := r1_neg Hi H2. by rewrite -negE -(r1_rest Hi Ht).
          - have Ht := Hnt _ Hi H. have H2 : negb' (nth None q1 i) by rewrite r1_rest. by split => //; exact: Hin. }
        rewrite E2. symmetry. apply/minn_idPr. rewrite -E2 -(size_low Hn10). exact: count_size.
    Qed.
  End SmallRow.

  (** Exactly ten assets: no signal at all. *)
  Lemma ten_assets r : size r = 10%N -> res_row r = nseq 10 (Some 0%re).
  Proof.
    move=> Hn. have Hn10 : (10 <= size r)%N by rewrite Hn.
    have Hall l : uniq l -> size l = 10%N -> (forall j, j \in l -> (j < 10)%N) -> forall i, (i < 10)%N -> i \in l.
    { move=> Hu Hsz Hl i Hi. have Hs : {subset l <= iota 0 10} by move=> j /Hl; rewrite mem_iota.
      have [_ E] := uniq_min_size Hu Hs ltac:(by rewrite size_iota Hsz). by rewrite E mem_iota. }
    apply: (@eq_from_nth _ None); rewrite size_res ?size_nseq // => i. rewrite Hn => Hi. rewrite nth_nseq Hi.
    have Hin : (i < size r)%N by rewrite Hn.
    have Ht : i \in top r. { apply: Hall => //; [exact: uniq_top|exact: size_top|]. by move=> j /top_lt; rewrite Hn. }
    have Hl : i \in low r. { apply: Hall => //; [exact: uniq_low|exact: size_low|]. by move=> j /low_lt; rewrite Hn. }
    rewrite resE // r2_low // r1_top //. case: (gt_opt (nth None r i) _); rewrite /gt_opt; (case: RltbP => H; [lra|exact: final_0]).
  Qed.
  (** All forecasts above 1 (returns in percent, say): no signal at all. *)
  Lemma large_forecasts r : (10 <= size r)%N -> (forall x, x \in r -> exists2 v, x = Some v & (1 < v)%re) -> res_row r = nseq (size r) (Some 0%re).
  Proof.
    move=> Hn10 Hbig. apply: (@eq_from_nth _ None); rewrite size_res ?size_nseq // => i Hi. rewrite nth_nseq Hi.
    have Hv j : (j < size r)%N -> exists2 v, nth None r j = Some v & (1 < v)%re by move=> Hj; apply: Hbig; exact: mem_nth.
    have H1 j : j \in top r -> nth None (r1 r) j = Some 1%re.
    { move=> Hj. have [v E H] := Hv _ (top_lt Hj). rewrite r1_top // E /=. case: RltbP => // ?. lra. }
    have Hsub : {subset top r <= low r}.
    { move=> j Hj. apply/negPn/negP => Hl.
      have Hs : {subset j :: low r <= top r}.
      { move=> k. rewrite inE => /orP [/eqP -> //|Hk]. apply/negPn/negP => Hkt. have Hkn := low_lt Hk.
        have := low_le Hk (top_lt Hj) Hl. rewrite (H1 _ Hj) r1_rest //. have [v -> H] := Hv _ Hkn. move=> /RlebP /=. lra. }
      have := uniq_leq_size (s1 := j :: low r) ltac:(by rewrite /= Hl uniq_low) Hs. by rewrite /= size_low // size_top. }
    rewrite resE //. case Hl : (i \in low r).
    - rewrite r2_low //. case Ht : (i \in top r).
      + rewrite H1 //=. case: RltbP => ?; [lra|exact: final_0].
      + rewrite r1_rest ?Ht //. have [v -> H] := Hv _ Hi. rewrite /=. case: RltbP => ?; [lra|exact: final_0].
    - have Ht : i \notin top r. { apply/negP => Ht. by rewrite Hsub in Hl. }
      rewrite r2_rest ?Hl // r1_rest //. have [v -> H] := Hv _ Hi. rewrite /= Rabs_right; last lra. case: ReqbP => // ?. lra.
  Qed.
  (** At most n - 10 short signals. *)
  Lemma few_minus r : (10 <= size r)%N -> (count (pred1 (Some (- 1)%re)) (res_row r) <= size r - 10)%N.
  Proof.
    move=> Hn. rewrite (count_pos None) size_res -(others_size Hn). apply: count_le => i Hi /eqP H.
    rewrite mem_filter mem_iota /= add0n Hi andbT. apply/negP => Ht. move: H. rewrite resE // => /final_minus.
    case Hl : (i \in low r).
    - rewrite r2_low // r1_top //. case: (gt_opt (nth None r i) _); rewrite /gt_opt; (case: RltbP => H; [lra|case; lra]).
    - rewrite r2_rest ?Hl // r1_top //. case: ifP => _ [H]; lra.
  Qed.
  Lemma sign_table rows : get_sign_prediction argsort rows =
    if has (fun r => (size r < 10)%N) rows then Raise ValueError else Ok [seq res_row r | r <- rows].
  Proof.
    rewrite /get_sign_prediction. elim: rows => //= r rows IH. rewrite /sign_row. case: ifP => //= H.
    rewrite IH. by case: (has _ rows).
  Qed.
End Sort.

(** Sorting positions by value is such an argsort. *)
Definition merge_argsort (r : seq (option R)) : seq nat := sort (fun i j => leo (nth None r i) (nth None r j)) (iota 0 (size r)).
Lemma leo_total : total leo.
Proof. move=> [x|] [y|] //=. exact: Rleb_total. Qed.
Lemma leo_trans : transitive leo.
Proof. move=> [y|] [x|] [z|] //=. exact: Rleb_trans. Qed.
Lemma merge_argsort_sorts : sorts merge_argsort.
Proof.
  move=> r. split; first by rewrite /merge_argsort perm_sort.
  move=> a b Hab Hb. set R := fun i j => leo (nth None r i) (nth None r j).
  have Ht : total R by move=> i j; exact: leo_total.
  have Htr : transitive R by move=> i j k; exact: leo_trans.
  have Hs : sorted R (merge_argsort r) by apply: sort_sorted.
  have Hz : size (merge_argsort r) = size r by rewrite size_sort size_iota.
  apply: (sorted_leq_nth Htr _ 0%N Hs) => //; rewrite ?inE ?Hz //.
  - move=> i. rewrite /R. case: (nth None r i) => [v|] //=. apply/RlebP. lra.
  - exact: leq_ltn_trans Hab Hb.
Qed.

Section Table.
  Context (argsort : seq (option R) -> seq nat) (Hsort : sorts argsort).
  Lemma sign_inv rows out t : get_sign_prediction argsort rows = Ok out -> (t < size rows)%N ->
    (10 <= size (nth [::] rows t))%N /\ nth [::] out t = res_row argsort (nth [::] rows t).
  Proof.
    rewrite sign_table. case: ifP => // H [<-] Ht. rewrite (nth_map [::]) //. split => //.
    move/hasPn: (negbT H) => /(_ (nth [::] rows t) (mem_nth _ Ht)). by rewrite -leqNgt.
  Qed.
  Lemma sign_outcome rows :
    ((exists2 r, r \in rows & (size r < 10)%N) /\ get_sign_prediction argsort rows = Raise ValueError) \/
    ((forall r, r \in rows -> (10 <= size r)%N) /\ exists out, get_sign_prediction argsort rows = Ok out /\ [seq size r | r <- out] = [seq size r | r <- rows]).
  Proof.
    rewrite sign_table. case: ifP => H; [left|right].
    - split => //. move/hasP: H => [r Hr Hs]. by exists r.
    - split. { move=> r Hr. move/hasPn: (negbT H) => /(_ r Hr). by rewrite -leqNgt. }
      eexists. split; [reflexivity|]. rewrite -map_comp. apply: eq_map => r /=. exact: size_res.
  Qed.
  Lemma sign_values rows out t i : get_sign_prediction argsort rows = Ok out -> (t < size rows)%N -> (i < size (nth [::] rows t))%N ->
    cell None out t i = Some 1%re \/ cell None out t i = Some (- 1)%re \/ cell None out t i = Some 0%re.
  Proof. move=> H Ht Hi. have [_ E] := sign_inv H Ht. rewrite /cell E. exact: res_values. Qed.
  Lemma sign_signals rows out t i : get_sign_prediction argsort rows = Ok out -> (t < size rows)%N ->
    let row := nth [::] rows t in (i < size row)%N -> (20 <= size row)%N -> small row ->
    let x := nth None row i in
    (cell None out t i = Some 1%re -> (exists2 v, x = Some v & (0 < v)%re) /\ (count (fun y => ~~ leo y x) row < 10)%N) /\
    ((exists2 v, x = Some v & (0 < v)%re) -> (count (fun y => leo x y) row <= 10)%N -> cell None out t i = Some 1%re) /\
    (cell None out t i = Some (- 1)%re -> (exists2 v, x = Some v & (v < 0)%re) /\ (count (fun y => ~~ leo x y) row < 10)%N) /\
    ((exists2 v, x = Some v & (v < 0)%re) -> (count (fun y => leo y x) row <= 10)%N -> cell None out t i = Some (- 1)%re).
  Proof.
    move=> H Ht row Hi H20 Hs x. have [_ E] := sign_inv H Ht. rewrite /cell E -/row.
    have P : gt_opt x (Some 0%re) <-> exists2 v, x = Some v & (0 < v)%re.
    { by case: x => [v|] /=; split => //; [move/RltbP => ?; exists v|move=> [w [->] Hw]; apply/RltbP|case]. }
    have N : gt_opt (Some 0%re) x <-> exists2 v, x = Some v & (v < 0)%re.
    { clear P. by case: x => [v|] /=; split => //; [move/RltbP => ?; exists v|move=> [w [->] Hw]; apply/RltbP|case]. }
    split; [|split; [|split]].
    - move=> H1. have [H2 H3] := one_sound Hsort H20 Hs Hi H1. split => //. exact/P.
    - move=> H1 H2. apply: (one_complete Hsort H20 Hs Hi) => //. exact/P.
    - move=> H1. have [H2 H3] := minus_sound Hsort H20 Hs Hi H1. split => //. exact/N.
    - move=> H1 H2. apply: (minus_complete Hsort H20 Hs Hi) => //. exact/N.
  Qed.
  Lemma sign_counts rows out t : get_sign_prediction argsort rows = Ok out -> (t < size rows)%N ->
    let row := nth [::] rows t in (20 <= size row)%N -> small row ->
    count (pred1 (Some 1%re)) (nth [::] out t) = minn (10 - n_nan row) (n_pos row) /\
    count (pred1 (Some (- 1)%re)) (nth [::] out t) = minn 10 (n_neg row).
  Proof.
    move=> H Ht row H20 Hs. have [_ ->] := sign_inv H Ht. split; [exact: ones_count|exact: minus_count].
  Qed.
  Lemma sign_narrow rows out t : get_sign_prediction argsort rows = Ok out -> (t < size rows)%N ->
    let row := nth [::] rows t in
    (count (pred1 (Some 1%re)) (nth [::] out t) <= size row - 10)%N /\
    (count (pred1 (Some (- 1)%re)) (nth [::] out t) <= size row - 10)%N.
  Proof. move=> H Ht row. have [H10 ->] := sign_inv H Ht. split; [exact: few_ones|exact: few_minus]. Qed.
  Lemma sign_large rows out t : get_sign_prediction argsort rows = Ok out -> (t < size rows)%N ->
    let row := nth [::] rows t in (forall x, x \in row -> exists2 v, x = Some v & (1 < v)%re) -> nth [::] out t = nseq (size row) (Some 0%re).
  Proof. move=> H Ht row Hb. have [H10 ->] := sign_inv H Ht. exact: large_forecasts. Qed.
End Table.
