(** * Examples for C114-C116. *)
From Coq Require Import Reals Lra List.
Set Warnings "-notation-overridden,-ambiguous-paths".
From mathcomp Require Import all_ssreflect all_algebra.
From Verif Require Import RStruct MatR Num Py ExpUtils SpecExp Prescient SpecPrescient PrescientProps.
Set Implicit Arguments.
Unset Strict Implicit.
Unset Printing Implicit Defensive.
Import GRing.Theory.
Local Open Scope ring_scope.
Delimit Scope R_scope with re.

Definition c1 (x : R) : 'cV[R]_1 := const_mx x.
Definition m1 (x : R) : 'M[R]_1 := const_mx x.
Definition ex_returns : seq (date * 'cV[R]_1) :=
  [:: ((2024, 1, 2), c1 1); ((2024, 2, 1), c1 2); ((2024, 3, 1), c1 2); ((2024, 4, 1), c1 1); ((2024, 5, 2), c1 3)]%N.
Definition ex_x0 : date * 'cV[R]_1 := ((0, 0, 0)%N, 0).
Definition ex_rows : seq 'cV[R]_1 := [:: c1 1; c1 2; c1 2].
Definition ex_rows2 : seq 'cV[R]_1 := [:: c1 1; c1 3].
Definition ex_preds : seq (date * 'M[R]_1) :=
  [:: ((2024, 1, 2), m1 (28 / 9)%re); ((2024, 2, 1), m1 (28 / 9)%re); ((2024, 3, 1), m1 (28 / 9)%re); ((2024, 4, 1), m1 6%re); ((2024, 5, 2), m1 6%re)]%N.
Definition ex_x3 : date * 'cV[R]_3 := ((0, 0, 0)%N, 0).
Definition ex_short : seq (date * 'cV[R]_3) := [:: ((2024, 1, 2)%N, const_mx 1); ((2024, 2, 1)%N, const_mx 2%re)].

Lemma c1T x : (c1 x)^T = c1 x. Proof. by apply/matrixP => i j; rewrite !mxE. Qed.
Lemma c1M x y : c1 x *m c1 y = c1 (x * y)%re.
Proof. apply/matrixP => i j. by rewrite !mxE big_ord1 !mxE. Qed.
Lemma c1D x y : c1 x + c1 y = c1 (x + y)%re. Proof. by apply/matrixP => i j; rewrite !mxE. Qed.
Lemma c1B x y : c1 x - c1 y = c1 (x - y)%re. Proof. by apply/matrixP => i j; rewrite !mxE. Qed.
Lemma c1Z a x : a *: c1 x = c1 (a * x)%re. Proof. by apply/matrixP => i j; rewrite !mxE. Qed.
Lemma c10 : 0 = c1 0. Proof. by apply/matrixP => i j; rewrite !mxE. Qed.
Ltac c1s := rewrite ?c1T ?c1M ?c1D ?c1B ?c1Z.

Lemma sm3 : second_moment ex_rows = m1 3.
Proof. rewrite /second_moment /ex_rows !big_cons big_nil c10. rewrite !c1T !c1M !c1D c1Z /m1 /c1. congr const_mx. rewrite /=. field. Qed.
Lemma inf3 : inflated_moment ex_rows = m1 (28 / 9).
Proof.
rewrite /inflated_moment sm3 /centred_moment /ex_rows !big_cons !big_nil c10. rewrite !c1D !c1Z !c1B !c1T !c1M !c1D !c1Z c1D /m1 /c1. congr const_mx. rewrite /=. field.
Qed.
Lemma inf2 : inflated_moment ex_rows2 = m1 6.
Proof.
rewrite /inflated_moment /second_moment /centred_moment /ex_rows2 !big_cons !big_nil c10.
rewrite !c1T !c1M !c1D !c1Z !c1B !c1T !c1M !c1D !c1Z c1D /m1 /c1. congr const_mx. rewrite /=. field.
Qed.
Lemma rows_q1 k : (k < 3)%N -> rows_where (same_quarter (nth ex_x0 ex_returns k).1) ex_returns = ex_rows.
Proof. by case: k => [|[|[|]]]. Qed.
Lemma rows_q2 k : (2 < k < 5)%N -> rows_where (same_quarter (nth ex_x0 ex_returns k).1) ex_returns = ex_rows2.
Proof. by case: k => [|[|[|[|[|]]]]]. Qed.

Lemma ex_value : all (fun p => calendar p.1) ex_returns /\
  prescient ex_returns = [:: ((2024, 1, 2), Some (const_mx (28 / 9)%re)); ((2024, 2, 1), Some (const_mx (28 / 9)%re)); ((2024, 3, 1), Some (const_mx (28 / 9)%re));
    ((2024, 4, 1), Some (const_mx 6%re)); ((2024, 5, 2), Some (const_mx 6%re))]%N.
Proof.
split=> //. rewrite prescient_value //.
have E3 : const_mx (28 / 9)%re = inflated_moment ex_rows := esym inf3. have E2 : const_mx 6%re = inflated_moment ex_rows2 := esym inf2. by rewrite E3 E2.
Qed.
Lemma c1_span x (rows : seq 'cV[R]_1) : c1 x \in rows -> x <> 0%re -> spanning rows.
Proof.
move=> Hin Hx y /(_ _ Hin). rewrite mxE big_ord1 !mxE => E. apply/matrixP => i j. rewrite !ord1 mxE. case: (Rmult_integral _ _ E) => //.
Qed.
Lemma ex_spanning : (1 < size ex_rows)%N /\ spanning ex_rows.
Proof. split=> //. apply: (@c1_span 1); [by rewrite in_cons eqxx|exact: R1_neq_R0]. Qed.
Lemma span2 : spanning ex_rows2.
Proof. apply: (@c1_span 1); [by rewrite in_cons eqxx|exact: R1_neq_R0]. Qed.
Lemma ex_spans k : (k.+1 < size ex_returns)%N -> spanning (rows_where (same_quarter (nth ex_x0 ex_returns k).1) ex_returns).
Proof.
move=> Hk. case: (ltnP k 3) => H3; first by rewrite rows_q1 //; exact: (proj2 ex_spanning). rewrite rows_q2; first exact: span2. by rewrite H3 /=; exact: ltnW.
Qed.
Lemma ex_scored : [/\ seq.uniq [seq r.1 | r <- ex_returns], all (fun p => calendar p.1) ex_returns, [seq (p.1, Some p.2) | p <- ex_preds] = prescient ex_returns,
  (forall k, (k.+1 < size ex_returns)%N -> spanning (rows_where (same_quarter (nth ex_x0 ex_returns k).1) ex_returns)) &
  exists l, scores ex_returns ex_preds = Ok l /\ nth ((0, 0, 0)%N, None) l 2 = ((2024, 4, 1)%N, Some (ln (normal_density 0 (const_mx (28 / 9)%re) (const_mx 1%re : 'cV[R]_1))))].
Proof.
have E : [seq (p.1, Some p.2) | p <- ex_preds] = prescient ex_returns by rewrite (proj2 ex_value).
split=> //; first exact: ex_spans. eexists. split; first by apply: (@scored _ _ _ ex_x0) => //; exact: ex_spans.
rewrite [(size _).-1]/= [iota _ _]/=. rewrite /=. congr (_, Some (ln (normal_density _ _ _))). exact: inf3.
Qed.
Lemma ex_short_quarter : exists preds, [/\ seq.uniq [seq r.1 | r <- ex_short], all (fun p => calendar p.1) ex_short,
  [seq (p.1, Some p.2) | p <- preds] = prescient ex_short, (1 < size ex_short)%N & (size (rows_where (same_quarter (nth ex_x3 ex_short 0).1) ex_short) < 3)%N].
Proof.
exists [seq (p.1, inflated_moment (rows_where (same_quarter p.1) ex_short)) | p <- ex_short]. split=> //. rewrite prescient_value //.
Qed.
Lemma m1_spd x : (0 < x)%re -> spd (m1 x).
Proof.
move=> Hx. split; first by apply/matrixP => i j; rewrite !mxE. move=> y Hy. rewrite /qf !mxE big_ord1 !mxE big_ord1 !mxE.
have Hy0 : y 0 0 <> 0%re by move=> E; case/eqP: Hy; apply/matrixP => i j; rewrite !ord1 mxE.
move: Hy0. set a := y 0 0. move: a => a Ha. have := Rsqr_pos_lt _ Ha. rewrite /Rsqr => H. toR.
rewrite (_ : (a * x * a)%re = (x * (a * a))%re); last ring. exact: Rmult_lt_0_compat.
Qed.
Lemma ex_best : spd (second_moment ex_rows) /\ second_moment ex_rows = const_mx 3%re.
Proof. rewrite sm3. split=> //. apply: m1_spd. lra. Qed.
Lemma c1_inj x y : c1 x = c1 y -> x = y.
Proof. move/matrixP/(_ 0 0). by rewrite !mxE. Qed.
Lemma ex_not_best : [/\ (const_mx 1%re : 'cV[R]_1) \in ex_rows, const_mx 2%re \in ex_rows, (const_mx 1%re : 'cV[R]_1) <> const_mx 2%re & spanning ex_rows].
Proof. split; [by rewrite in_cons eqxx|by rewrite !in_cons eqxx orbT|by move/c1_inj; lra|exact: (proj2 ex_spanning)]. Qed.
Lemma ex_regret : let returns := take 3 ex_returns in let P := const_mx (28 / 9)%re : 'M[R]_1 in
  [/\ seq.uniq [seq r.1 | r <- returns], [seq (r.1, Some P) | r <- returns] = prescient returns, spd P, spd (second_moment [seq r.2 | r <- behead returns]) &
      P <> second_moment [seq r.2 | r <- behead returns]].
Proof.
move=> returns P. have E : second_moment [seq r.2 | r <- behead returns] = m1 4.
  rewrite /second_moment /= !big_cons big_nil c10 !c1T !c1M !c1D c1Z /m1 /c1. congr const_mx. field.
rewrite E. split=> //; [by rewrite prescient_value // /P (_ : const_mx (28 / 9)%re = inflated_moment ex_rows) //; exact: esym inf3|apply: m1_spd; lra|apply: m1_spd; lra|move/c1_inj; lra].
Qed.
Lemma ex_change : (2%re%:M : 'M[R]_1) \in unitmx /\ (forall k, (k < size ex_preds)%N -> lookup ex_returns (nth ((0, 0, 0)%N, 0) ex_preds k).1 = Some (nth ex_x0 ex_returns k).2) /\
  (forall k, (k.+1 < size ex_preds)%N -> spd (nth ((0, 0, 0)%N, 0) ex_preds k).2).
Proof.
split; first by rewrite unitmxE det_scalar1; apply/eqP => E; have : (2 = 0)%re := E; lra.
split; first by case=> [|[|[|[|[|]]]]].
case=> [|[|[|[|[|]]]]] //= _; apply: m1_spd; lra.
Qed.
