(** * The generative mode: concrete cases. *)
From Coq Require Import Reals Lra List Lia.
Set Warnings "-notation-overridden,-ambiguous-paths".
From mathcomp Require Import all_ssreflect all_algebra.
From Verif Require Import RStruct MatR Num Py Spectral Gen SpecGen GenProps GenMain.
Set Implicit Arguments.
Unset Strict Implicit.
Unset Printing Implicit Defensive.
Import GRing.Theory.
Local Open Scope ring_scope.
Delimit Scope R_scope with re.

Section Ex.
  Variable n : nat.
  Lemma psd_root (A : 'M[R]_n) : A^T = A -> (forall w : 'rV[R]_n, (0 <= (w *m A *m w^T) ord0 ord0)%re) -> exists B : 'M[R]_n, B^T *m B = A.
  Proof.
  move=> HS HP. have [U [d [HU [HM _]]]] := spectral HS.
  have HU' : U *m U^T = 1%:M by apply: mulmx1C.
  have Hd i : (0 <= d ord0 i)%re.
    have := HP (row i U^T). rewrite -row_mul.
    have E : U^T *m A = diag_mx d *m U^T.
      have := congr1 trmx HM. by rewrite !trmx_mul HS tr_diag_mx.
    rewrite E row_mul -mulmxA.
    have -> : U^T *m (row i U^T)^T = col i (1%:M).
      rewrite tr_row trmxK -HU. apply/matrixP => u v. rewrite !mxE. by apply: eq_bigr => k _; rewrite !mxE.
    rewrite !mxE (bigD1 i) //= big1 ?addr0; last by move=> j Hj; rewrite !mxE (eq_sym i) (negbTE Hj) mulr0n mul0r.
    by rewrite !mxE eqxx mulr1n mulr1.
  exists (diag_mx (\row_i sqrt (d ord0 i)) *m U^T).
  rewrite trmx_mul trmxK tr_diag_mx mulmxA -(mulmxA U) mulmx_diag.
  have -> : \row_j ((\row_i sqrt (d ord0 i)) ord0 j * (\row_i sqrt (d ord0 i)) ord0 j) = d.
    apply/matrixP => u v. rewrite !mxE !ord1. exact: (sqrt_sqrt _ (Hd v)).
  by rewrite -HM -mulmxA HU' mulmx1.
  Qed.
  Definition is_fullb m (A : 'M[option R]_(m, n)) : bool := [forall i, forall j, isSome (A i j)].
  Lemma is_fullP m (A : 'M[option R]_(m, n)) : reflect (is_full A) (is_fullb A).
  Proof.
  apply: (iffP idP) => [H|[B H]].
    exists (\matrix_(i, j) odflt 0%re (A i j)) => i j. rewrite mxE. move/forallP/(_ i)/forallP/(_ j): H. by case: (A i j).
  apply/forallP => i. apply/forallP => j. by rewrite H.
  Qed.
  (** A draw that always returns the mean. *)
  Definition mean_draw (i : nat) (e : 'M[option R]_n) : res 'rV[option R]_n := if is_fullb e then Ok (const_mx (Some 0%re)) else Raise LinAlgError.
  Lemma mean_draw_ok : gaussian mean_draw.
  Proof.
  move=> i e. rewrite /mean_draw. split; first by case: is_fullP.
  move=> A HA HS HP. have [B HB] := psd_root HS HP. case: is_fullP => [_|[]]; last by exists A.
  exists (const_mx (Some 0%re)), 0, 0, B. split=> //. split; first by move=> u v; rewrite !mxE. split=> //. by rewrite mul0mx.
  Qed.
End Ex.

(** One asset: a draw one standard deviation above the mean. *)
Definition up_draw (i : nat) (e : 'M[option R]_1) : res 'rV[option R]_1 := if e ord0 ord0 is Some v then Ok (const_mx (Some (sqrt v))) else Raise LinAlgError.
Lemma up_draw_ok : gaussian up_draw.
Proof.
move=> i e. rewrite /up_draw. split.
  case E: (e ord0 ord0) => [v|] // []. exists (const_mx v) => a b. by rewrite !ord1 mxE.
move=> A HA HS HP. rewrite HA. have P : (0 <= A ord0 ord0)%re.
  have := HP (const_mx 1). rewrite !mxE big_ord1 !mxE big_ord1 !mxE mulr1 mul1r. by [].
exists (const_mx (Some (sqrt (A ord0 ord0)))), (const_mx (sqrt (A ord0 ord0))), (const_mx 1), (const_mx (sqrt (A ord0 ord0))).
split=> //. split; first by move=> a b; rewrite !mxE. split.
  apply/matrixP => a b. rewrite !ord1 !mxE big_ord1 !mxE. exact: sqrt_sqrt.
apply/matrixP => a b. by rewrite !ord1 !mxE big_ord1 !mxE mul1r.
Qed.
Lemma gen_example : ewma_cov up_draw [:: (7%N, const_mx (Some 2%re))] 1 1 1 None =
  ([:: Estimate 7%N (const_mx (Some 4%re)); Sample 0 (const_mx (Some 2%re))], None).
Proof.
rewrite /ewma_cov /general. case: eqP => [H|_]; first by have := R1_neq_R0; rewrite H.
have -> : outer (const_mx (Some 2%re) : 'rV_1) = const_mx (Some 4%re) by apply/matrixP => i j; rewrite !mxE /=; congr Some; lra.
rewrite /=. have -> : all_nan (const_mx (Some 4%re) : 'M_1) = false by apply/negP => /forallP /(_ ord0) /forallP /(_ ord0); rewrite mxE.
rewrite /up_draw mxE. congr (_, _). congr [:: _; Sample _ _]. have -> : (4 = 2 * 2)%re by lra. by rewrite sqrt_square //; lra.
Qed.
(** Two assets, the second one without a value on the first day: the estimate of the pair never recovers. *)
Definition gappy (x : R) : 'rV[option R]_2 := \row_j (if j == ord0 then Some x else if x == 1%re then None else Some x).
Lemma gap_example draw : let ev := (ewma_cov draw [:: (1%N, gappy 1); (2%N, gappy 2)] 1 0 0 None).1 in
  exists e1 e2, ev = [:: Estimate 1%N e1; Estimate 2%N e2] /\ e1 ord0 ord0 = Some 1%re /\ e2 ord0 ord0 = Some 3%re /\ e2 ord0 ord_max = None.
Proof.
have Hh : 1%re <> 0%re by exact: R1_neq_R0.
move=> ev. have [xs [err [E [Hs _]]]] := @gen_events 2 nat draw [:: (1%N, gappy 1); (2%N, gappy 2)] 1 0 0 None Hh isT isT.
case: xs Hs E => // _ E. rewrite /ev E /= cats0.
have G00 : gap [:: gappy 1; gappy 2] ord0 = false by rewrite /gap /= !mxE.
have E1 : ewma_of 1 [:: gappy 1] ord0 ord0 = Some 1%re.
  rewrite ewma_entry // /gap /= !mxE /= /WS /WW !big_ord1 /= /ret /= !mxE /= subnn expr0. congr Some.
  change ((1 * (1 * 1)) / 1 = 1)%re. field.
have E2 : ewma_of 1 [:: gappy 1; gappy 2] ord0 ord0 = Some 3%re.
  rewrite ewma_entry // G00 /=. congr Some. rewrite -[2%N]/(1.+1) !WS_S !WW_S /WS /WW !big_ord0 /ret /= !mxE /=.
  have B : beta_of 1 = (1 / 2)%re.
    rewrite /beta_of. have -> : (- ln 2 / 1 = - ln 2)%re by field. rewrite exp_Ropp exp_ln; lra.
  rewrite B. change ((1 / 2 * (1 / 2 * 0 + 1 * 1) + 2 * 2) / (1 / 2 * (1 / 2 * 0 + 1) + 1) = 3)%re. lra.
have N1 : all_nan (ewma_of 1 [:: gappy 1]) = false by apply/negP => /forallP /(_ ord0) /forallP /(_ ord0); rewrite E1.
have N2 : all_nan (ewma_of 1 [:: gappy 1; gappy 2]) = false by apply/negP => /forallP /(_ ord0) /forallP /(_ ord0); rewrite E2.
rewrite N1 N2 /=. exists (ewma_of 1 [:: gappy 1]), (ewma_of 1 [:: gappy 1; gappy 2]). split=> //. split=> //. split=> //.
rewrite ewma_entry // G00 /gap /= !mxE /= eqxx. by [].
Qed.
(** Two equal assets: long one, short the other earns nothing. *)
Lemma span_example : earns (const_mx (Some 2%re) : 'rV[option R]_2) (\row_j (if j == ord0 then 1 else - 1)%R) 0%re.
Proof.
exists (const_mx 2%re); first by move=> i j; rewrite !mxE.
rewrite mxE !big_ord_recl big_ord0 !mxE /=. change (2 * 1 + (2 * - (1) + 0) = 0)%re. lra.
Qed.
