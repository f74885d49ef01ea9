(** * The maximum diversification portfolio is unique. *)
From Coq Require Import Reals ZArith String List Lia Lra Classical.
Set Warnings "-notation-overridden,-ambiguous-paths".
From mathcomp Require Import all_ssreflect all_algebra.
From mathcomp.zify Require Import zify_ssreflect.
From Verif Require Import RStruct MatR Spec EwmaReal Simplex Compact CombExist Spectral Num Py Trader SpecTrader TraderLists TraderOpt TraderBt TraderCalc LowRankProps TraderPort.
Set Implicit Arguments.
Unset Strict Implicit.
Unset Printing Implicit Defensive.
Import GRing.Theory.
Local Open Scope ring_scope.
Delimit Scope R_scope with re.

Section Unique.
  Context (n : nat) (S : 'M[R]_n).
  Hypothesis HS : spd S.
  Notation vec := 'cV[R]_n.
  Lemma md_mid M : mid_closed (md_feasible S M).
  Proof.
    move=> x y [Hx [Hx1 Hx2]] [Hy [Hy1 Hy2]].
    have E i : ((/ 2)%re *: (x + y)) i 0 = (/ 2 * (x i 0%R + y i 0%R))%re by rewrite scaleE addE.
    have Es : \sum_i ((/ 2)%re *: (x + y)) i 0 = (/ 2 * ((\sum_i x i 0)%R + (\sum_i y i 0)%R))%re.
      rewrite sumZ. toR. congr Rmult. under eq_bigr do rewrite addE. by rewrite big_split.
    split; [|split].
    - move=> i. rewrite E. have := Hx i. have := Hy i. move: (x i 0) (y i 0) => p q. toR. lra.
    - move=> i. rewrite E Es. have := Hx1 i. have := Hy1 i. move: (\sum_j x j 0)%R (\sum_j y j 0)%R (x i 0) (y i 0) => p q p1 q1. toR. lra.
    - rewrite dotpZ. have -> : dotp (\col_i sqrt (S i i)) (x + y) = (dotp (\col_i sqrt (S i i)) x + dotp (\col_i sqrt (S i i)) y)%re.
        rewrite /dotp. toR. under eq_bigr do rewrite addE mulrDr. by rewrite big_split. rewrite Hx2 Hy2. toR. lra.
  Qed.
  (** The normalised problem and the ratio have the same solutions. *)
  Lemma md_back M w : long_cap M w -> (forall w', long_cap M w' -> Rle (div_ratio S w') (div_ratio S w)) ->
    minimiser (vol S) (md_feasible S M) ((/ dotp (\col_i sqrt (S i i)) w)%re *: w).
  Proof.
    move=> Hw Hm. have [Hd [HF [Ev Hp]]] := md_unnorm HS Hw. split=> // z Hz. rewrite Ev.
    have [_ [Hlc Hr]] := md_norm HS Hz. have := Hm _ Hlc. rewrite Hr => Hle. have Hv := vol_gt0 HS (md_nz Hz).
    rewrite -[X in (_ <= X)%re]Rinv_inv. apply: Rinv_le_contravar => //. exact: Rinv_0_lt_compat.
  Qed.
  Lemma md_unique M w w' : (long_cap M w /\ forall u, long_cap M u -> Rle (div_ratio S u) (div_ratio S w)) ->
    (long_cap M w' /\ forall u, long_cap M u -> Rle (div_ratio S u) (div_ratio S w')) -> w = w'.
  Proof.
    move=> [Hw Hm] [Hw' Hm']. have [Hd _] := md_unnorm HS Hw. have [Hd' _] := md_unnorm HS Hw'.
    have := min_unique HS (@md_mid M) (md_back Hw Hm) (md_back Hw' Hm').
    set d := dotp _ w in Hd *. set d' := dotp _ w' in Hd' *. move=> E.
    have Ed : (/ d = / d')%re. have := congr1 (fun v : vec => \sum_i v i 0) E. rewrite !sumZ (proj1 (proj2 Hw)) (proj1 (proj2 Hw')) !mulr1. by [].
    apply/colP => i. have := congr1 (fun v : vec => v i 0) E. rewrite !scaleE Ed. toR. move=> H. apply: (Rmult_eq_reg_l _ _ _ H). apply: Rgt_not_eq. exact: Rinv_0_lt_compat.
  Qed.
End Unique.

