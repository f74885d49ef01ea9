(** * Fewer rows than columns: some combination of the columns vanishes. *)
From Coq Require Import Reals Lra.
Set Warnings "-notation-overridden,-ambiguous-paths".
From mathcomp Require Import all_ssreflect all_algebra.
From mathcomp.zify Require Import zify_ssreflect.
From Verif Require Import RStruct MatR Spec.
Set Implicit Arguments.
Unset Strict Implicit.
Unset Printing Implicit Defensive.
Import GRing.Theory.
Local Open Scope ring_scope.
Delimit Scope R_scope with re.

Lemma rsum_big K (f : nat -> R) : rsum K f = \sum_(k < K) f k.
Proof. by elim: K => [|K IH] /=; rewrite ?big_ord0 // big_ord_recr /= IH. Qed.

Lemma short_rows (n m : nat) (a : nat -> nat -> R) : (m < n)%coq_nat ->
  exists w : nat -> R, (exists p, (p < n)%coq_nat /\ w p <> 0%re) /\
    forall s, (s < m)%coq_nat -> rsum n (fun p => w p * a p s)%re = 0%re.
Proof.
move/ltP => H. pose M : 'M[R]_(n, m) := \matrix_(i, j) a i j.
have Hr : (\rank (kermx M) > 0)%N by rewrite mxrank_ker subn_gt0; apply: leq_ltn_trans H; exact: rank_leq_col.
have /rowV0Pn[v Hv Hv0] : kermx M != 0 by rewrite -mxrank_eq0 -lt0n.
exists (fun p => if insub p is Some p' then v 0 p' else 0). split.
  have [j Hj] : exists j, v 0 j != 0 by apply/rV0Pn.
  exists j. split; first exact/ltP. by rewrite valK; apply/eqP.
move=> s /ltP Hs. rewrite rsum_big. move/sub_kermxP: Hv => Hv. have := congr1 (fun A : 'M[R]_(1, m) => A 0 (Ordinal Hs)) Hv. rewrite [RHS]mxE => E.
rewrite -[RHS]E mxE. apply: eq_bigr => i _. by rewrite valK mxE.
Qed.
