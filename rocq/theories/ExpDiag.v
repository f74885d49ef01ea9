(** * add_to_diagonal: effects on the heap. *)
From Coq Require Import Reals ZArith String List Lia Lra.
Set Warnings "-notation-overridden,-ambiguous-paths".
From mathcomp Require Import all_ssreflect all_algebra.
From mathcomp.zify Require Import zify_ssreflect.
From Verif Require Import RStruct MatR Spectral Num Py CombFacts Combination Regularization SpecReg RegProps ExpUtils SpecExp.
Set Implicit Arguments.
Unset Strict Implicit.
Unset Printing Implicit Defensive.
Import GRing.Theory.
Local Open Scope ring_scope.
Delimit Scope R_scope with re.

Section Diag.
  Context (n : nat).
  Notation heap := (heap n).
  Implicit Types (h : heap) (l : nat).

  Lemma plus_diagE lamda (S : 'M[R]_n) : plus_diag lamda S = scale_variances (1 + lamda)%R S.
  Proof.
    apply/matrixP => i j. rewrite !mxE. case: (eqVneq i j) => [->|H]; rewrite ?mulr1n ?mulr0n; first by rewrite mulrDl mul1r.
    by rewrite mulr0 addr0.
  Qed.
  Lemma scale_comp a b (S : 'M[R]_n) : scale_variances a (scale_variances b S) = scale_variances (a * b)%R S.
  Proof. apply/matrixP => i j. rewrite !mxE. by case: (i == j); rewrite ?mulrA. Qed.
  Lemma scale_1 (S : 'M[R]_n) : scale_variances 1 S = S.
  Proof. apply/matrixP => i j. rewrite !mxE. by case: ifP; rewrite ?mul1r. Qed.
  Lemma qf_scale c (S : 'M[R]_n) x : qf (scale_variances c S) x = qf S x + \sum_i ((c - 1) * S i i) * (x i 0 * x i 0).
  Proof.
    have ->: scale_variances c S = plus_diag (c - 1)%R S by rewrite plus_diagE addrC subrK.
    rewrite /plus_diag qfD qfZ diag_qf. congr (_ + _). rewrite mulr_sumr. apply: eq_bigr => i _.
    by rewrite !mxE mulrA.
  Qed.
  Lemma scale_spd c (S : 'M[R]_n) : Rlt 1 c -> psd S -> (forall i, Rlt 0 (S i i)) -> spd (scale_variances c S).
  Proof.
    move=> Hc [Hs Hq] Hd; split.
    - rewrite /sym. apply/matrixP => i j. rewrite !mxE eq_sym. by case: eqP => [->|_] //; have := congr1 (fun M : 'M_n => M i j) Hs; rewrite mxE => ->.
    - move=> x Hx. rewrite qf_scale. apply: Rplus_le_lt_0_compat; first exact: Hq.
      have /existsP [i Hi]: [exists i, x i 0 != 0].
      { apply: contraNT Hx; rewrite negb_exists => /forallP H. apply/eqP/colP => i. rewrite mxE. by apply/eqP; move: (H i); rewrite negbK. }
      have Hc1: Rlt 0 (c - 1)%R by toR; lra.
      apply: (@sumR_gt0 _ _ i) => [j|].
      + apply: Rmult_le_pos; last exact: Rle_0_sqr. by apply: Rmult_le_pos; apply: Rlt_le.
      + apply: Rmult_lt_0_compat; first exact: Rmult_lt_0_compat.
        apply: Rlt_0_sqr. exact/eqP.
  Qed.

  Lemma nth_error_rcons (A : Type) (s : seq A) x k :
    List.nth_error (rcons s x) k = if k == size s then Some x else List.nth_error s k.
  Proof. elim: s k => [|a s IH] [|k] //=; [by case: k|exact: IH]. Qed.
  Lemma nth_error_set (A : Type) (s : seq A) (x y : A) k i : (k < size s)%N ->
    List.nth_error (set_nth x s k y) i = if i == k then Some y else List.nth_error s i.
  Proof. elim: s k i => [|a s IH] [|k] [|i] //= H. by rewrite IH. Qed.
  Lemma hget_lt h l o : hget h l = Some o -> (l < size h)%N.
  Proof. move=> H. apply/ltP. apply/List.nth_error_Some. by rewrite -/(hget h l) H. Qed.

  Lemma dict_set_keys (V : Type) (d : list (Z * V)) k v : List.In k (map fst d) -> map fst (dict_set Z.eqb d k v) = map fst d.
  Proof.
    elim: d => [//|[k' v'] d IH] /=. case: Z.eqb_spec => [->|Hne] //= [E|Hin]; first by case: Hne. by rewrite IH.
  Qed.
  Lemma dict_get_set (V : Type) (d : list (Z * V)) k v k' : dict_get Z.eqb (dict_set Z.eqb d k v) k' = if Z.eqb k' k then Some v else dict_get Z.eqb d k'.
  Proof.
    elim: d => [//|[a b] d IH] /=. case: (Z.eqb_spec k a) => [->|Hne] /=; first by case: Z.eqb.
    rewrite IH. case: (Z.eqb_spec k' a) => [->|//]. by case: Z.eqb_spec => // E; case: Hne.
  Qed.
  Lemma dict_set_in (V : Type) (d : list (Z * V)) k v p : List.In p (dict_set Z.eqb d k v) -> p.2 = v \/ List.In p d.
  Proof.
    elim: d => [|[a b] d IH] /=; first by case=> // <-; left. case: Z.eqb => /= -[H|H]; try by auto.
    - by left; rewrite -H.
    - by case: (IH H); auto.
  Qed.

  Lemma add_one_ok h l lamda key keys : dict_ok h l keys -> List.In key keys ->
    exists h', add_one l lamda h key = Ok h' /\ dict_ok h' l keys /\ (size h <= size h')%N /\
      (forall k, matrix_at h' l k = if Z.eqb k key then omap (plus_diag lamda) (matrix_at h l k) else matrix_at h l k) /\
      (forall l0, (l0 < size h)%N -> l0 <> l -> hget h' l0 = hget h l0).
  Proof.
    move=> [d [Hl [Hk [Hnd Ha]]]] Hin. rewrite /add_one Hl.
    have [a Ga]: exists a, dict_get Z.eqb d key = Some a by apply: dict_get_key; rewrite -Hk in Hin.
    rewrite Ga /=. have [S HS] := Ha _ _ (dict_get_In _ _ _ Ga). rewrite HS.
    have Hlt := hget_lt Hl. have Hlt' : (l < size (rcons h (Arr (plus_diag lamda S))))%N by rewrite size_rcons ltnW.
    have G i : hget (hset (rcons h (Arr (plus_diag lamda S))) l (Dict n (dict_set Z.eqb d key (size h)))) i =
      if i == l then Some (Dict n (dict_set Z.eqb d key (size h))) else if i == size h then Some (Arr (plus_diag lamda S)) else hget h i.
    { by rewrite /hget /hset nth_error_set // nth_error_rcons. }
    have Hals k b : List.In (k, b) d -> (b == l) = false /\ (b == size h) = false.
    { move=> H. have [S' HS'] := Ha _ _ H. split; apply/negbTE/eqP => E.
      - by move: HS'; rewrite E Hl. - by have := hget_lt HS'; rewrite E ltnn. }
    have Hsl: (size h == l) = false by apply/negbTE/eqP; lia.
    eexists; split; first by []. split; [|split; [|split]].
    - exists (dict_set Z.eqb d key (size h)). split; first by rewrite G eqxx.
      split; first by rewrite dict_set_keys // Hk. split=> // k b Hkb. have := dict_set_in Hkb => /= -[->|Hb].
      + rewrite G Hsl eqxx. by eexists.
      + have [E1 E2] := Hals _ _ Hb. rewrite G E1 E2. exact: Ha Hb.
    - rewrite /hset size_set_nth size_rcons. exact: leq_trans (leqnSn _) (leq_maxr _ _).
    - move=> k. rewrite /matrix_at G eqxx Hl dict_get_set. case: Z.eqb_spec => [->|Hne] /=.
      + by rewrite G Hsl eqxx Ga /= HS.
      + case Gb: (dict_get Z.eqb d k) => [b|//] /=. have [E1 E2] := Hals _ _ (dict_get_In _ _ _ Gb). by rewrite G E1 E2.
    - move=> l0 H0 Hne. rewrite G. have ->: (l0 == l) = false by apply/negbTE/eqP. by have ->: (l0 == size h) = false by apply/negbTE/eqP; lia.
  Qed.

  Lemma fold_ok lamda l keys todo : List.NoDup todo -> (forall k, List.In k todo -> List.In k keys) -> forall h, dict_ok h l keys ->
    exists h', foldM (add_one l lamda) h todo = Ok h' /\ dict_ok h' l keys /\ (size h <= size h')%N /\
      (forall k, List.In k todo -> matrix_at h' l k = omap (plus_diag lamda) (matrix_at h l k)) /\
      (forall k, ~ List.In k todo -> matrix_at h' l k = matrix_at h l k) /\
      (forall l0, (l0 < size h)%N -> l0 <> l -> hget h' l0 = hget h l0).
  Proof.
    elim: todo => [|key todo IH] Hnd Hsub h Hok; first by exists h.
    have [h1 [E1 [Hok1 [Hs1 [Hm1 Ho1]]]]] := add_one_ok lamda Hok (Hsub key (or_introl erefl)).
    move: Hnd => /List.NoDup_cons_iff [Hnin Hnd].
    have [h2 [E2 [Hok2 [Hs2 [Hm2 [Hm2' Ho2]]]]]] := IH Hnd (fun k H => Hsub k (or_intror H)) _ Hok1.
    exists h2. rewrite /= E1 /= E2. do ![split=> //]; first exact: leq_trans Hs1 Hs2.
    - move=> k [<-|H]; first by rewrite Hm2' // Hm1 Z.eqb_refl.
      rewrite Hm2 // Hm1. by case: Z.eqb_spec => // E; move: Hnin; rewrite -E.
    - move=> k H. rewrite Hm2' ?Hm1; last by move=> H'; apply: H; right.
      by case: Z.eqb_spec => // E; case: H; left.
    - move=> l0 H0 Hne. rewrite Ho2 ?Ho1 //. exact: leq_trans H0 Hs1.
  Qed.

  Lemma add_ok h l lamda keys : dict_ok h l keys ->
    exists h', add_to_diagonal h l lamda = Ok (h', l) /\ dict_ok h' l keys /\ (size h <= size h')%N /\
      (forall k, matrix_at h' l k = omap (scale_variances (1 + lamda)%R) (matrix_at h l k)) /\
      (forall l0, (l0 < size h)%N -> l0 <> l -> hget h' l0 = hget h l0).
  Proof.
    move=> Hok. have [d [Hl [Hk [Hnd Ha]]]] := Hok. rewrite /add_to_diagonal Hl Hk.
    have [h' [-> [H1 [H2 [H3 [H4 H5]]]]]] := fold_ok lamda Hnd (fun k H => H) Hok.
    exists h'; do ![split=> //] => k.
    case: (List.in_dec Z.eq_dec k keys) => Hin.
    - rewrite H3 //. case: (matrix_at h l k) => [S|//] /=. by rewrite plus_diagE.
    - rewrite H4 // /matrix_at Hl. have ->: dict_get Z.eqb d k = None by apply/dict_get_none; rewrite -Hk in Hin. by [].
  Qed.

  Lemma calls_ok k l lamda keys : forall h, dict_ok h l keys ->
    exists h', add_calls k h l lamda = Ok h' /\
      (forall key, matrix_at h' l key = omap (scale_variances ((1 + lamda) ^+ k)%R) (matrix_at h l key)) /\
      (forall l0, (l0 < size h)%N -> l0 <> l -> hget h' l0 = hget h l0).
  Proof.
    elim: k => [|k IH] h Hok.
    - exists h; do ![split=> //] => key. case: (matrix_at h l key) => [S|//] /=. by rewrite expr0 scale_1.
    - have [h1 [E1 [Hok1 [Hs1 [Hm1 Ho1]]]]] := add_ok lamda Hok. have [h2 [E2 [Hm2 Ho2]]] := IH _ Hok1.
      exists h2. rewrite /= E1 /= E2; do ![split=> //].
      + move=> key. rewrite Hm2 Hm1. case: (matrix_at h l key) => [S|//] /=. by rewrite scale_comp -exprSr.
      + move=> l0 H0 Hne. rewrite Ho2 ?Ho1 //. exact: leq_trans H0 Hs1.
  Qed.
End Diag.
