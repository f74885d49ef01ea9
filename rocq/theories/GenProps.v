(** * Proofs about the generative mode. *)
From Coq Require Import Reals Lra List Lia.
Set Warnings "-notation-overridden,-ambiguous-paths".
From mathcomp Require Import all_ssreflect all_algebra.
From Verif Require Import RStruct MatR Num Py Gen SpecGen.
Set Implicit Arguments.
Unset Strict Implicit.
Unset Printing Implicit Defensive.
Import GRing.Theory.
Local Open Scope ring_scope.
Delimit Scope R_scope with re.

Lemma beta_pos h : (0 < beta_of h)%re.
Proof. rewrite /beta_of. have := exp_pos (- ln 2 / h). lra. Qed.
Lemma beta_ne1 h : h <> 0%re -> beta_of h <> 1%re.
Proof.
move=> Hh. rewrite /beta_of => H. have E : exp (- ln 2 / h) = exp 0 by rewrite exp_0; lra.
have := exp_inv _ _ E. have L : (0 < ln 2)%re by have := ln_lt_2; lra.
move=> F. have : (- ln 2 / h * h = 0)%re by rewrite F; ring. move=> G. have : (- ln 2 / h * h = - ln 2)%re by field. lra.
Qed.
Lemma age_pow h m s : h <> 0%re -> age_weight h m s = (beta_of h ^+ (m - s.+1))%R.
Proof.
move=> Hh. rewrite /age_weight. elim: (m - s.+1)%N => [|k IH].
  rewrite expr0 /Rpower /= /Rdiv Rmult_0_l Ropp_0 Rmult_0_l exp_0 //.
rewrite exprS -IH /Rpower S_INR /beta_of. have -> : (- ((INR k + 1) / h) * ln 2 = - ln 2 / h + - (INR k / h) * ln 2)%re by field.
rewrite exp_plus. change ((exp (- ln 2 / h) * exp (- (INR k / h) * ln 2))%re = ((1 - (1 - exp (- ln 2 / h))) * exp (- (INR k / h) * ln 2))%re). ring.
Qed.

Section Weights.
  Variable b : R.
  Hypotheses (b0 : (0 < b)%re) (b1 : b <> 1%re).
  Definition WS m (z : nat -> R) : R := \sum_(s < m) b ^+ (m - s.+1) * z s.
  Definition WW m : R := \sum_(s < m) b ^+ (m - s.+1).
  Lemma WS_S m z : WS m.+1 z = (b * WS m z + z m)%re.
  Proof.
  rewrite /WS big_ord_recr /= subnn expr0 mul1r. congr (_ + _)%R. rewrite -[RHS]/(b * _)%R mulr_sumr. apply: eq_bigr => s _.
  rewrite mulrA -exprS. congr (_ ^+ _ * _). have := ltn_ord s. move=> H. by rewrite subSS -subSn // subSS.
  Qed.
  Lemma WW_S m : WW m.+1 = (b * WW m + 1)%re.
  Proof.
  rewrite /WW big_ord_recr /= subnn expr0. congr (_ + _)%R. rewrite -[RHS]/(b * _)%R mulr_sumr. apply: eq_bigr => s _.
  rewrite -exprS. congr (_ ^+ _). have := ltn_ord s. move=> H. by rewrite subSS -subSn // subSS.
  Qed.
  Lemma WW_geo m : (WW m * (1 - b) = 1 - pow b m)%re.
  Proof.
  elim: m => [|m IH]. rewrite /WW big_ord0 /=. change ((0 * (1 - b))%re = (1 - 1)%re). ring.
  rewrite WW_S /=. transitivity (b * (WW m * (1 - b)) + (1 - b))%re; first ring. rewrite IH. ring.
  Qed.
  Lemma WW_pos m : (0 < m)%N -> (0 < WW m)%re.
  Proof.
  elim: m => // m IH _. rewrite WW_S. case: m IH => [|m] IH; first by rewrite /WW big_ord0; change (0 < b * 0 + 1)%re; lra.
  have := IH isT. move=> H. have := Rmult_lt_0_compat _ _ b0 H. lra.
  Qed.
  Lemma WS_step m z : (0 < m)%N -> (WS m z / WW m + (1 - b) * (z m - WS m z / WW m) / (1 - pow b (m + 1)) = WS m.+1 z / WW m.+1)%re.
  Proof.
  move=> Hm. have P := WW_pos Hm. have P' := WW_pos (ltn0Sn m). rewrite addn1 -WW_geo WS_S. have E := WW_S m.
  have Hb : (1 - b <> 0)%re by lra.
  have EW : WW m = ((WW m.+1 - 1) / b)%re by rewrite E; field; lra.
  set W := WW m.+1 in P' EW *. rewrite EW. have HW : (W - 1 <> 0)%re.
    rewrite /W E. have := Rmult_lt_0_compat _ _ b0 P. lra.
  field. repeat split; lra.
  Qed.
End Weights.

Section Props.
  Variables (n : nat) (T : Type).
  Implicit Types (rows : seq 'rV[option R]_n) (x : 'rV[option R]_n).
  Variable h : R.
  Hypothesis h0 : h <> 0%re.
  Let b := beta_of h.
  Let b0 : (0 < b)%re := beta_pos h.
  Let b1 : b <> 1%re := beta_ne1 h0.

  Lemma ewma_entry rows i j : ewma_of h rows i j = if gap rows i || gap rows j then None else
     Some (WS b (size rows) (fun s => ret rows s i * ret rows s j)%R / WW b (size rows))%re.
  Proof.
  rewrite mxE. case: (_ || _) => //. congr Some. rewrite /WS /WW. congr Rdiv.
    by apply: eq_bigr => s _; rewrite age_pow.
  by apply: eq_bigr => s _; rewrite age_pow.
  Qed.
  Lemma gap_rcons rows x i : gap (rcons rows x) i = gap rows i || ~~ isSome (x ord0 i).
  Proof. by rewrite /gap has_rcons orbC. Qed.
  Lemma ret_rcons_lt rows x s i : (s < size rows)%N -> ret (rcons rows x) s i = ret rows s i.
  Proof. by rewrite /ret nth_rcons => ->. Qed.
  Lemma ret_rcons rows x i : ret (rcons rows x) (size rows) i = odflt 0%re (x ord0 i).
  Proof. by rewrite /ret nth_rcons ltnn eqxx. Qed.
  Lemma WS_ext m (z z' : nat -> R) : (forall s, (s < m)%N -> z s = z' s) -> WS b m z = WS b m z'.
  Proof. move=> H. apply: eq_bigr => s _. by rewrite H. Qed.

  Lemma step_ewma rows x : (0 < size rows)%N -> step b (size rows + 1) (ewma_of h rows) (outer x) = ewma_of h (rcons rows x).
  Proof.
  move=> Hr. apply/matrixP => i j. rewrite mxE !ewma_entry mxE !gap_rcons.
  case Gi: (gap rows i) => /=; first by []. case Gj: (gap rows j) => /=; first by rewrite orbT.
  case Xi: (x ord0 i) => [u|] /=; last by [].
  case Xj: (x ord0 j) => [v|] /=; last by [].
  congr Some. rewrite size_rcons.
  have E z : (forall s, (s < size rows)%N -> z s = (ret rows s i * ret rows s j)%R) -> z (size rows) = (u * v)%R ->
     (WS b (size rows) z / WW b (size rows) + (1 - b) * (z (size rows) - WS b (size rows) z / WW b (size rows)) / (1 - pow b (size rows + 1)) = WS b (size rows).+1 z / WW b (size rows).+1)%re ->
     (WS b (size rows) (fun s => ret rows s i * ret rows s j)%R / WW b (size rows) + (1 - b) * (u * v - WS b (size rows) (fun s => ret rows s i * ret rows s j)%R / WW b (size rows)) / (1 - pow b (size rows + 1)) = WS b (size rows).+1 z / WW b (size rows).+1)%re.
    move=> H1 H2 <-. rewrite H2. by rewrite (@WS_ext _ z (fun s => ret rows s i * ret rows s j)%R).
  apply: E; last exact: WS_step.
    by move=> s Hs; rewrite !ret_rcons_lt.
  by rewrite !ret_rcons Xi Xj.
  Qed.
  Lemma outer_ewma x : outer x = ewma_of h [:: x].
  Proof.
  apply/matrixP => i j. rewrite ewma_entry mxE /gap /= !orbF. case Xi: (x ord0 i) => [u|] //=. case Xj: (x ord0 j) => [v|] //=.
  congr Some. rewrite /WS /WW !big_ord1 /= /ret /= Xi Xj /= subnn expr0 mul1r. change (u * v = u * v / 1)%re. field.
  Qed.

  (** What [consume] makes of the items of the loop when no item is a pair. *)
  Lemma f_item1 mp (t : T) e k : (mp <= 1)%N -> @f_item n T mp t e k = Triple t e k.
  Proof. move=> H. rewrite /f_item. have -> : (mp - 1 = 0)%N by apply/eqP. by []. Qed.

  Fixpoint est pre (rows : seq (T * 'rV[option R]_n)) : seq (event n T) :=
    if rows is r :: rows then let pre' := rcons pre r.2 in
      (if all_nan (ewma_of h pre') then [::] else [:: Estimate r.1 (ewma_of h pre')]) ++ est pre' rows else [::].
  Lemma consume_loop mp pre (rows : seq (T * 'rV[option R]_n)) last : (mp <= 1)%N -> (0 < size pre)%N ->
    consume (general_loop b mp (size pre) (ewma_of h pre) rows) (Some last) =
    (est pre rows, inr (Some (if rows is [::] then last else (ewma_of h (pre ++ map snd rows), (size pre + size rows).-1)))).
  Proof.
  move=> Hm. elim: rows pre last => [|r rows IH] pre last Hp //. rewrite [general_loop _ _ _ _ _]/= step_ewma // f_item1 //.
  rewrite [consume _ _]/= -(size_rcons pre r.2) IH ?size_rcons //.
  have -> : (if rows is [::] then (ewma_of h (rcons pre r.2), size pre) else (ewma_of h (rcons pre r.2 ++ map snd rows), ((size pre).+1 + size rows).-1)) =
     (ewma_of h (pre ++ map snd (r :: rows)), (size pre + size (r :: rows)).-1).
    case: rows {IH} => [|r' rows]; first by rewrite cats1 addn1.
    congr pair; [by rewrite -cats1 -catA | by rewrite [size (r :: _)]/= addnS addSn].
  rewrite [est pre (r :: rows)]/=. by case: (all_nan (ewma_of h (rcons pre r.2))).
  Qed.
  Lemma est_nth pre (rows : seq (T * 'rV[option R]_n)) : estimates (est pre rows) =
    [seq (x.1, x.2) | x <- zip (map fst rows) [seq ewma_of h (pre ++ take t.+1 (map snd rows)) | t <- iota 0 (size rows)] & ~~ all_nan x.2].
  Proof.
  elim: rows pre => [|r rows IH] pre //. rewrite [est pre (r :: rows)]/= /estimates pmap_cat -/(estimates (est _ rows)) IH /=.
  rewrite take0 cats1.
  have -> : [seq ewma_of h (pre ++ take t.+1 (r.2 :: map snd rows)) | t <- iota 1 (size rows)] =
    [seq ewma_of h (rcons pre r.2 ++ take t.+1 (map snd rows)) | t <- iota 0 (size rows)].
    rewrite (iotaDl 1 0) -map_comp. apply: eq_map => t /=. by rewrite -cats1 -catA.
  by case: all_nan.
  Qed.
  Lemma est_samples pre (rows : seq (T * 'rV[option R]_n)) : samples (est pre rows) = [::].
  Proof. elim: rows pre => [|r rows IH] pre //=. rewrite /samples pmap_cat -/(samples (est _ rows)) IH. by case: all_nan. Qed.

  (** The sampling loop. *)
  Definition used (g : option (seq 'rV[option R]_n)) (xs : seq 'rV[option R]_n) i : seq 'rV[option R]_n :=
    take i (if g is Some g then g else xs).
  Variable draw : nat -> 'M[option R]_n -> res 'rV[option R]_n.
  Lemma nth_errorE (A : Type) (d : A) (l : seq A) i : List.nth_error l i = if (i < size l)%N then Some (nth d l i) else None.
  Proof. elim: l i => [|a l IH] [|i] //=. by rewrite IH ltnS. Qed.

  Lemma sample_run g m i rows : (0 < size rows)%N ->
    exists xs err, sample_loop T draw b g m i (size rows).-1 (ewma_of h rows) =
      ([seq @Sample n T (i + k) (nth (const_mx None) xs k) | k <- iota 0 (size xs)], err) /\ (size xs <= m)%N /\
    let nxt k := if g is Some g then take k (drop i g) else take k xs in
    (forall k, (k < size xs)%N -> draw (i + k) (ewma_of h (rows ++ nxt k)) = Ok (nth (const_mx None) xs k) /\ (if g is Some g then (i + k < size g)%N else true)) /\
    (size xs = m /\ err = None \/ (size xs < m)%N /\
      ((exists2 e, err = Some e & draw (i + size xs) (ewma_of h (rows ++ nxt (size xs))) = Raise e) \/
       (exists x, draw (i + size xs) (ewma_of h (rows ++ nxt (size xs))) = Ok x) /\ err = Some IndexError /\ exists2 g', g = Some g' & (size g' <= i + size xs)%N)).
  Proof.
  move: g => gd. elim: m i rows => [|m IH] i rows Hr.
    exists [::], None. do 2!split=> //. split; first by []. by left.
  rewrite [sample_loop _ _ _ _ _ _ _ _]/=. case D: (draw i _) => [x|e]; last first.
    exists [::], (Some e). do 2!split => //. split; first by []. right. split=> //. left. exists e => //.
    by rewrite addn0 /=; case: (gd) => [g|]; rewrite ?take0 cats0.
  have Hk : ((size rows).-1 + 1 + 1 = size rows + 1)%N by rewrite (addn1 (size rows).-1) prednK.
  have Hx r : size (rcons rows r) = (size rows).+1 by rewrite size_rcons.
  case: gd IH => [g|] IH.
    rewrite (nth_errorE (const_mx None)). case: ltnP => Hi; last first.
      exists [::], (Some IndexError). do 2!split => //. split; first by []. right. split=> //. right.
      rewrite addn0 take0 cats0. split; first by exists x. split=> //. by exists g.
    rewrite Hk step_ewma //. set r := nth _ g i.
    case: (IH i.+1 (rcons rows r)) => [|xs [err [E [Hs [A B]]]]]; first by rewrite Hx.
    rewrite Hx /= in E. rewrite prednK // E.
    exists (x :: xs), err. split.
      congr pair. rewrite /= addn0. congr cons. rewrite (iotaDl 1 0) -map_comp. apply: eq_map => k /=. by rewrite addnS.
    have Ed : drop i g = r :: drop i.+1 g by rewrite (drop_nth (const_mx None)).
    split=> //. rewrite Ed. split.
      case=> [|k] Hk'; first by rewrite addn0 take0 cats0.
      have [P Q] := A k Hk'. rewrite addnS -addSn. split=> //=. by rewrite -cat_rcons.
    case: B => [[<- ->]|[B1 B2]]; [by left|right]. split=> //.
    rewrite -[size (x :: xs)]/((size xs).+1) addnS -addSn. rewrite [take _ _]/= -cat_rcons. exact: B2.
  rewrite Hk step_ewma //.
  case: (IH i.+1 (rcons rows x)) => [|xs [err [E [Hs [A B]]]]]; first by rewrite Hx.
  rewrite Hx /= in E. rewrite prednK // E.
  exists (x :: xs), err. split.
    congr pair. rewrite /= addn0. congr cons. rewrite (iotaDl 1 0) -map_comp. apply: eq_map => k /=. by rewrite addnS.
  split=> //. split.
    case=> [|k] Hk'; first by rewrite addn0 take0 cats0.
    have [P Q] := A k Hk'. rewrite addnS -addSn. split=> //=. by rewrite -cat_rcons.
  case: B => [[<- ->]|[B1 B2]]; [by left|right]. split=> //.
  rewrite -[size (x :: xs)]/((size xs).+1) addnS -addSn. rewrite [take _ _]/= -cat_rcons. exact: B2.
  Qed.

  (** One run. *)
  Lemma run (data : seq (T * 'rV[option R]_n)) mp N g : (mp <= 1)%N -> (0 < size data)%N ->
    exists xs err, ewma_cov draw data h mp N g = (est [::] data ++ [seq @Sample n T k (nth (const_mx None) xs k) | k <- iota 0 (size xs)], err) /\ (size xs <= N)%N /\
    let nxt k := if g is Some g then take k g else take k xs in
    (forall k, (k < size xs)%N -> draw k (ewma_of h (map snd data ++ nxt k)) = Ok (nth (const_mx None) xs k) /\ (if g is Some g then (k < size g)%N else true)) /\
    (size xs = N /\ err = None \/ (size xs < N)%N /\
      ((exists2 e, err = Some e & draw (size xs) (ewma_of h (map snd data ++ nxt (size xs))) = Raise e) \/
       (exists x, draw (size xs) (ewma_of h (map snd data ++ nxt (size xs))) = Ok x) /\ err = Some IndexError /\ exists2 g', g = Some g' & (size g' <= size xs)%N)).
  Proof.
  move=> Hm. case: data => [//|r rows] _. have [xs [err [E R]]] := @sample_run g N 0 (map snd (r :: rows)) isT.
  exists xs, err. split; last by case: g {E} R => [g|] R; rewrite ?drop0 in R; exact: R.
  rewrite /ewma_cov /general. case: eqP => // _. rewrite f_item1 // (outer_ewma r.2) [consume _ _]/=.
  rewrite -[1%N]/(size [:: r.2]) consume_loop //.
  have -> : (if rows is [::] then (ewma_of h [:: r.2], 0%N) else (ewma_of h ([:: r.2] ++ map snd rows), (size [:: r.2] + size rows).-1)) =
    (ewma_of h (map snd (r :: rows)), (size (map snd (r :: rows))).-1).
    by case: rows {E R} => //= r' rows; rewrite size_map.
  rewrite -/b E. rewrite [est _ (_ :: _)]/=. by case: all_nan.
  Qed.
End Props.
