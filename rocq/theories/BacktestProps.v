(** * Proofs about portfolio_backtests.py: data alignment. *)
From Coq Require Import Reals ZArith String List Lia.
Set Warnings "-notation-overridden,-ambiguous-paths".
From mathcomp Require Import all_ssreflect all_algebra.
From Verif Require Import RStruct MatR Num Py Spec ListFacts Combination Trader SpecTrader Backtests SpecBt.
Set Implicit Arguments.
Unset Strict Implicit.
Unset Printing Implicit Defensive.
Import GRing.Theory.
Local Open Scope ring_scope.
Delimit Scope R_scope with re.
Delimit Scope Z_scope with z.

Lemma mapE A B (f : A -> B) l : List.map f l = map f l.
Proof. by []. Qed.
Lemma filterE A (p : A -> bool) l : List.filter p l = filter p l.
Proof. by elim: l => //= x l ->. Qed.
Lemma In_filter A (p : A -> bool) l x : List.In x (filter p l) <-> List.In x l /\ p x.
Proof. rewrite -filterE. split=> [/List.filter_In //|H]. exact/List.filter_In. Qed.
Lemma In_map A B (f : A -> B) l y : List.In y (map f l) <-> exists x, f x = y /\ List.In x l.
Proof. exact: List.in_map_iff. Qed.
Lemma In_zip A B (l : seq A) (m : seq B) x y : List.In (x, y) (zip l m) <-> exists j, List.nth_error l j = Some x /\ List.nth_error m j = Some y.
Proof.
  elim: l m => [|a l IH] [|b m] /=; try by split=> [[]|[[|j] [H1 H2]]].
  split.
  - case=> [[-> ->]|/IH [j Hj]]; [by exists 0%N|by exists j.+1].
  - case=> [[|j]] [H1 H2]; first by left; case: H1 H2 => -> [->]. right. apply/IH. by exists j.
Qed.
Lemma inc_sorted l : increasing l -> sorted Z.leb l.
Proof.
  elim: l => [//|a l IH] H. have Hl := IH (increasing_tail _ _ H). case: l H Hl {IH} => [//|b l] /= [H _] Hl. rewrite Hl andbT. apply/Z.leb_le. lia.
Qed.

Section Consec.
  Context {A : Type}.
  Implicit Types l : seq (Z * A).
  Definition consec l : seq ((Z * A) * (Z * A)) := zip l (behead l).
  Lemma later x l : increasing (map fst (x :: l)) -> forall y, List.In y l -> (x.1 < y.1)%z.
  Proof. move=> /increasing_all_lt /List.Forall_forall H y Hy. apply: H. apply: List.in_map. exact: Hy. Qed.
  Lemma filter_nil l (p : Z * A -> bool) : (forall y, List.In y l -> p y = false) -> filter p l = [::].
  Proof. elim: l => //= x l IH H. rewrite (H x); last by left. apply: IH => y Hy. apply: H. by right. Qed.
  Lemma consec_filter a b l : increasing (map fst l) ->
    consec [seq r <- l | Z.leb a r.1 && Z.leb r.1 b] = [seq p <- consec l | Z.leb a p.1.1 && Z.leb p.2.1 b].
  Proof.
    elim: l => [//|x l IH] H. have Hl := increasing_tail _ _ H. case: l H Hl IH => [|y l] H Hl IH.
      rewrite /consec /=. by case: ifP.
    have Hxy : (x.1 < y.1)%z by apply: (later H); left.
    have E0 : consec (x :: y :: l) = (x, y) :: consec (y :: l) by []. rewrite E0 [RHS]/= -(IH Hl) {IH E0} /=.
    case Ha : (Z.leb a x.1) => /=.
    - case Hb : (Z.leb y.1 b) => /=.
      + have -> : Z.leb x.1 b by apply/Z.leb_le; move/Z.leb_le: Hb; lia. have -> : Z.leb a y.1 by apply/Z.leb_le; move/Z.leb_le: Ha; lia. by [].
      + rewrite andbF. have E : [seq r <- l | Z.leb a r.1 && Z.leb r.1 b] = [::].
          apply: filter_nil => z Hz. apply/andP => [[_ /Z.leb_le H1]]. have := later Hl Hz. move/Z.leb_gt: Hb. lia.
        rewrite E. by case: (Z.leb x.1 b).
    - by [].
  Qed.
  Lemma In_consec l x y : List.In (x, y) (consec l) <-> exists j, List.nth_error l j = Some x /\ List.nth_error l j.+1 = Some y.
  Proof.
    rewrite /consec In_zip. have E j : List.nth_error (behead l) j = List.nth_error l j.+1 by case: l => [|z l] //=; case: j. 
    split; case=> j [H1 H2]; exists j; split=> //; [by rewrite -E|by rewrite E].
  Qed.
  Lemma inc_filter (p : Z * A -> bool) l : increasing (map fst l) -> increasing (map fst (filter p l)).
  Proof.
    elim: l => [//|x l IH] H /=. have Hl := IH (increasing_tail _ _ H). case: ifP => _ //=. case E : (filter p l) Hl => [//|y r] Hl /=. split=> //.
    apply: (later H). have : List.In y (filter p l) by rewrite E; left. by move/In_filter => [].
  Qed.
End Consec.

Section Bt.
  Context (n : nat).
  Notation row := (row n).
  Lemma shift_consec (w : seq (Z * row)) : (0 < n)%N -> dropna (shift_up w) = [seq (p.1.1, p.2.2) | p <- consec w & complete p.2.2].
  Proof.
    move=> Hn. have Hnone : complete (const_mx None : row) = false.
      apply/negbTE. apply/negP => /forallP /(_ (Ordinal Hn)). by rewrite mxE.
    rewrite /dropna /shift_up. elim: w => [//|x [|y w] IH].
      by rewrite /= Hnone.
    rewrite /consec /= in IH *. case: ifP => _ /=; by rewrite -IH.
  Qed.
  Lemma map_fst_zip A B (l : seq A) (m : seq B) : size m = size l -> map fst (zip l m) = l.
  Proof. by elim: l m => [|a l IH] [|b m] //= [/IH ->]. Qed.
  Lemma nth_error_zip A B (l : seq A) (m : seq B) j x y : List.nth_error (zip l m) j = Some (x, y) <-> List.nth_error l j = Some x /\ List.nth_error m j = Some y.
  Proof.
    elim: j l m => [|j IH] [|a l] [|b m] //=; try (by split=> [|[]]). by split=> [[-> ->]|[[->] [->]]].
  Qed.
  (** The dates and rows that get_causal keeps. *)
  Definition kept (f : rframe n) a b : seq (Z * row) :=
    [seq (p.1.1, p.2.2) | p <- consec (items f) & (Z.leb a p.1.1 && Z.leb p.2.1 b) && complete p.2.2].
  Lemma slice_kept (f : rframe n) a b : (0 < n)%N -> size f.2 = size f.1.1 -> increasing f.1.1 ->
    exists w, loc_slice (items f) a b = Ok w /\ dropna (shift_up w) = kept f a b.
  Proof.
    move=> Hn Hs Hi. have E : map fst (items f) = f.1.1 by apply: map_fst_zip. rewrite /loc_slice E inc_sorted //. eexists. split; first by reflexivity.
    rewrite shift_consec // consec_filter ?E // -filter_predI /kept. congr map. apply: eq_filter => p /=. by rewrite andbC.
  Qed.
  Lemma compl_val (q : row) r : complete q /\ r = values q <-> forall i, q i 0 = Some (r i 0).
  Proof.
    split.
    - move=> [/forallP H ->] i. have := H i. rewrite mxE. by case: (q i 0).
    - move=> H. split; first by apply/forallP => i; rewrite H. apply/colP => i. by rewrite mxE H.
  Qed.
  Lemma In_kept (f : rframe n) a b t r : good_frame f -> List.In (t, r) [seq (q.1, values q.2) | q <- kept f a b] <-> traded f a b t r.
  Proof.
    move=> [_ [Hs _]]. rewrite In_map. split.
    - case=> [[t0 q]] [[<- <-]] {t0 r} /In_map [[[t1 q1] [t2 q2]]] /= [[<- <-]] /In_filter [/In_consec [j [/nth_error_zip [H1 H1'] /nth_error_zip [H2 H2']]]] /= /andP [/andP [/Z.leb_le H3 /Z.leb_le H4] H5].
      exists j, t2, q2. do 5 split=> //. exact/compl_val.
    - case=> j [t' [q [H1 [H2 [H3 [H4 [H5 /compl_val [H6 ->]]]]]]]]. exists (t, q). split=> //.
      have [q0 H0] : exists q0, List.nth_error f.2 j = Some q0.
        case E : (List.nth_error f.2 j) => [q0|]; first by exists q0. move/List.nth_error_None: E => E. have := proj1 (List.nth_error_Some f.1.1 j). rewrite H1 => /(_ ltac:(discriminate)).
        have El : List.length f.2 = List.length f.1.1 by exact: Hs. rewrite El in E. by move=> /PeanoNat.Nat.lt_nge.
      apply/In_map. exists ((t, q0), (t', q)). split=> //. apply/In_filter. split.
      + apply/In_consec. exists j. split; by apply/nth_error_zip.
      + by move/Z.leb_le: H4 => /= ->; move/Z.leb_le: H5 => ->.
  Qed.
  Lemma kept_inc (f : rframe n) a b : good_frame f -> increasing (map fst (kept f a b)).
  Proof.
    move=> [Hn [Hs Hi]]. have [w [E <-]] := slice_kept a b Hn Hs Hi. apply: inc_filter.
    have -> : map fst (shift_up w) = map fst w.
      case: (w) => [|x w'] //. apply: map_fst_zip. by rewrite size_rcons size_behead !size_map.
    move: E. rewrite /loc_slice. case: ifP => // _ [<-]. apply: inc_filter. by rewrite map_fst_zip.
  Qed.

  Lemma dict_at_ok V (d : seq (Z * V)) ts : List.NoDup ts -> (forall t, List.In t ts -> dict_get Z.eqb d t <> None) ->
    exists l, dict_at d ts = Ok l /\ map fst l = ts /\ forall t v, List.In (t, v) l -> dict_get Z.eqb d t = Some v.
  Proof.
    move=> Hd H. have [l [E1 [E2 E3]]] : exists l, mapM (fun t => do v <- or_raise (dict_get Z.eqb d t) KeyError; Ok (t, v)) ts = Ok l /\ map fst l = ts /\ forall t v, List.In (t, v) l -> dict_get Z.eqb d t = Some v.
      elim: ts H {Hd} => [|t ts IH] H /=; first by exists [::].
      case E : (dict_get Z.eqb d t) (H t (or_introl erefl)) => [v|] // _ /=. have [l [-> [E2 E3]]] := IH (fun t Ht => H t (or_intror Ht)). exists ((t, v) :: l).
      split=> //. split; first by rewrite /= E2. move=> t' v' /= [[<- <-]|] //. exact: E3.
    exists l. split=> //. rewrite /dict_at E1 /= dict_of_nodup // mapE E2. exact: Hd.
  Qed.
  Lemma dict_at_missing V (d : seq (Z * V)) ts t : List.In t ts -> dict_get Z.eqb d t = None -> dict_at d ts = Raise KeyError.
  Proof.
    move=> Hin E. rewrite /dict_at. have -> : mapM (fun t => do v <- or_raise (dict_get Z.eqb d t) KeyError; Ok (t, v)) ts = Raise KeyError; last by [].
    elim: ts Hin => [//|u ts IH] /= [->|Hin]; first by rewrite E. case: (dict_get Z.eqb d u) => [v|] //=. by rewrite IH.
  Qed.
  Lemma dict_at_inv V (d : seq (Z * V)) ts l : dict_at d ts = Ok l -> forall t, List.In t ts -> dict_get Z.eqb d t <> None.
  Proof. move=> E t Ht H. by rewrite (dict_at_missing Ht H) in E. Qed.

  Lemma causal_inv (f : rframe n) Sg a b mus rt St mt : good_frame f -> get_causal f Sg a b mus = Ok (rt, St, mt) ->
    rt = (map fst (kept f a b), f.1.2, map (fun r => values r.2) (kept f a b)) /\
    map fst St = map fst (kept f a b) /\ (forall t S, List.In (t, S) St -> dict_get Z.eqb Sg t = Some S) /\
    match mus, mt with
    | None, None => True
    | Some m, Some g => exists l, g = (map fst (kept f a b), if kept f a b is [::] then [::] else m.1.2, map snd l) /\ map fst l = map fst (kept f a b) /\
        forall t r, List.In (t, r) l -> dict_get Z.eqb (zip m.1.1 m.2) t = Some r
    | _, _ => False
    end.
  Proof.
    move=> Hf. have [Hn [Hs Hi]] := Hf. have [w [E1 E2]] := slice_kept a b Hn Hs Hi. have Hd := increasing_NoDup _ (kept_inc a b Hf).
    rewrite /get_causal E1 /= E2. case ES : (dict_at Sg _) => [l|] //=. have [l' [ES' [EF EV]]] := dict_at_ok Hd (dict_at_inv ES). rewrite ES' in ES. case: ES => ES. rewrite -ES.
    case: mus => [m|] /=.
    - case EM : (dict_at (zip _ _) _) => [lm|] //=. have [lm' [EM' [EF' EV']]] := dict_at_ok Hd (dict_at_inv EM). rewrite EM' in EM. case: EM => EM. rewrite -EM.
      case=> <- <- <-. split=> //. split=> //. split=> //. exists lm'. split=> //. rewrite EF'. congr (_, _, _). by move: EF'; case: (lm') => [|x y]; case: (kept f a b).
    - by case=> <- <- <-.
  Qed.
  Lemma causal_total (f : rframe n) Sg a b : good_frame f -> (forall t r, traded f a b t r -> dict_get Z.eqb Sg t <> None) ->
    exists rt St, get_causal f Sg a b None = Ok (rt, St, None).
  Proof.
    move=> Hf H. have [Hn [Hs Hi]] := Hf. have [w [E1 E2]] := slice_kept a b Hn Hs Hi. have Hd := increasing_NoDup _ (kept_inc a b Hf).
    rewrite /get_causal E1 /= E2. have [|l [-> _]] := dict_at_ok Hd (d := Sg); last by do 2 eexists.
    move=> t /In_map [[t' q]] /= [<- Hq]. apply: (H t' (values q)). apply/In_kept => //. apply/In_map. by exists (t', q).
  Qed.
  Lemma causal_total_mus (f : rframe n) Sg a b m : good_frame f -> (forall t r, traded f a b t r -> dict_get Z.eqb Sg t <> None) ->
    (forall t r, traded f a b t r -> dict_get Z.eqb (zip m.1.1 m.2) t <> None) ->
    exists rt St mt, get_causal f Sg a b (Some m) = Ok (rt, St, mt).
  Proof.
    move=> Hf H H'. have [Hn [Hs Hi]] := Hf. have [w [E1 E2]] := slice_kept a b Hn Hs Hi. have Hd := increasing_NoDup _ (kept_inc a b Hf).
    have HK V (d : seq (Z * V)) : (forall t r, traded f a b t r -> dict_get Z.eqb d t <> None) -> forall t, List.In t (map fst (kept f a b)) -> dict_get Z.eqb d t <> None.
      move=> Hd0 t /In_map [[t' q]] /= [<- Hq]. apply: (Hd0 t' (values q)). apply/In_kept => //. apply/In_map. by exists (t', q).
    rewrite /get_causal E1 /= E2. have [l [-> _]] := dict_at_ok Hd (HK _ _ H). have [l' [-> _]] := dict_at_ok Hd (HK _ _ H'). by do 3 eexists.
  Qed.
  Lemma causal_missing (f : rframe n) Sg a b mus t r : good_frame f -> traded f a b t r -> dict_get Z.eqb Sg t = None -> get_causal f Sg a b mus = Raise KeyError.
  Proof.
    move=> Hf Ht H. have [Hn [Hs Hi]] := Hf. have [w [E1 E2]] := slice_kept a b Hn Hs Hi.
    rewrite /get_causal E1 /= E2. move/(In_kept a b t r Hf): Ht => /In_map [[t' q]] /= [[E3 _] Hq]. rewrite (@dict_at_missing _ Sg _ t) //.
    apply/In_map. by exists (t', q).
  Qed.
End Bt.
