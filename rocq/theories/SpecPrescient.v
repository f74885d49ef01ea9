(** * Vocabulary for the properties of the evaluation cells. *)
From Coq Require Import Reals List.
Set Warnings "-notation-overridden,-ambiguous-paths".
From mathcomp Require Import all_ssreflect all_algebra.
From Verif Require Import RStruct MatR Num Py ExpUtils SpecExp Prescient.
Set Implicit Arguments.
Unset Strict Implicit.
Unset Printing Implicit Defensive.
Import GRing.Theory.
Local Open Scope ring_scope.
Delimit Scope R_scope with re.

Section SpecPrescient.
  Context (n : nat).
  Notation vec := 'cV[R]_n.
  Notation mat := 'M[R]_n.
  (** The two dates lie in the same quarter of the same year: January to March, April to June, ... *)
  Definition same_quarter (t u : date) : bool :=
    (d_year t == d_year u) && has (fun q => (q < d_month t <= q + 3)%N && (q < d_month u <= q + 3)%N) [:: 0; 3; 6; 9]%N.
  (** A calendar date. *)
  Definition calendar (t : date) : bool := (0 < d_month t <= 12)%N.
  (** The returns of the dates that satisfy p. *)
  Definition rows_where (p : pred date) (returns : seq (date * vec)) : seq vec := [seq r.2 | r <- returns & p r.1].
  (** Average of r r'. *)
  Definition second_moment (rows : seq vec) : mat := (/ INR (size rows))%re *: \sum_(r <- rows) r *m r^T.
  (** Average of (r - mean) (r - mean)'. *)
  Definition centred_moment (rows : seq vec) : mat :=
    let mean := (/ INR (size rows))%re *: \sum_(r <- rows) r in (/ INR (size rows))%re *: \sum_(r <- rows) (r - mean) *m (r - mean)^T.
  (** Second moment plus the centred one divided by the number of rows minus one. *)
  Definition inflated_moment (rows : seq vec) : mat := second_moment rows + (/ (INR (size rows) - 1))%re *: centred_moment rows.
  (** Only the zero portfolio earns nothing on every row. *)
  Definition spanning (rows : seq vec) : Prop := forall x : vec, (forall r, r \in rows -> (x^T *m r) 0 0 = 0) -> x = 0.
  (** Log-likelihood of the rows if all are drawn from N(0, S). *)
  Definition total (S : mat) (rows : seq vec) : R := \sum_(r <- rows) ln (normal_density 0 S r).
  (** All returns multiplied by A (another choice of assets or units). *)
  Definition change_assets (A : mat) (returns : seq (date * vec)) : seq (date * vec) := [seq (r.1, A *m r.2) | r <- returns].
  Definition change_cov (A : mat) (predictor : seq (date * mat)) : seq (date * mat) := [seq (p.1, A *m p.2 *m A^T) | p <- predictor].
  (** Sum of a series without NaN. *)
  Definition series_sum (l : seq (date * option R)) : R := \sum_(p <- l) odflt 0%re p.2.
End SpecPrescient.
