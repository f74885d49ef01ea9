(** * Vocabulary for the properties of the generative mode. *)
From Coq Require Import Reals List.
Set Warnings "-notation-overridden,-ambiguous-paths".
From mathcomp Require Import all_ssreflect all_algebra.
From Verif Require Import RStruct MatR Num Py Gen.
Set Implicit Arguments.
Unset Strict Implicit.
Unset Printing Implicit Defensive.
Import GRing.Theory.
Local Open Scope ring_scope.
Delimit Scope R_scope with re.

Section SpecGen.
  Variables (n : nat) (T : Type).
  Implicit Types (rows : seq 'rV[option R]_n) (x : 'rV[option R]_n).

  (** Asset i has no value on some day of the rows. *)
  Definition gap rows (i : 'I_n) : bool := has (fun x => ~~ isSome (x ord0 i)) rows.
  (** Return of asset i on day s (0 if missing; only used without gaps). *)
  Definition ret rows (s : nat) (i : 'I_n) : R := odflt 0%re (nth (const_mx None) rows s ord0 i).
  (** Weight of day s of m days: half after [h] days. *)
  Definition age_weight (h : R) (m s : nat) : R := Rpower 2 (- (INR (m - s.+1) / h)).
  (** Exponentially weighted second moments of the rows; NaN for a pair with a missing value. *)
  Definition ewma_of (h : R) rows : 'M[option R]_n := \matrix_(i, j)
    if gap rows i || gap rows j then None
    else Some ((\sum_(s < size rows) age_weight h (size rows) s * (ret rows s i * ret rows s j))%R / (\sum_(s < size rows) age_weight h (size rows) s)%R)%re.

  (** The samples among the events, and the estimates. *)
  Definition samples (ev : seq (event n T)) : seq 'rV[option R]_n := pmap (fun v => if v is Sample _ x then Some x else None) ev.
  Definition estimates (ev : seq (event n T)) : seq (T * 'M[option R]_n) := pmap (fun v => if v is Estimate t e then Some (t, e) else None) ev.

  (** A vector or matrix without missing entries. *)
  Definition full m (A : 'M[option R]_(m, n)) (B : 'M[R]_(m, n)) : Prop := forall i j, A i j = Some (B i j).
  Definition is_full m (A : 'M[option R]_(m, n)) : Prop := exists B, full A B.
  (** Contract of np.random.multivariate_normal(0, cov): a covariance with a NaN is an error (the SVD fails); for a
      symmetric positive semidefinite one the draw is z B with a root B of it (B^T B = cov). *)
  Definition gaussian (draw : nat -> 'M[option R]_n -> res 'rV[option R]_n) : Prop := forall i e,
    (~ is_full e -> draw i e = Raise LinAlgError) /\
    (forall A, full e A -> A^T = A -> (forall w : 'rV[R]_n, (0 <= (w *m A *m w^T) ord0 ord0)%re) ->
      exists x y z (B : 'M[R]_n), draw i e = Ok x /\ full x y /\ B^T *m B = A /\ y = z *m B).
  (** No value of the row is missing, and the portfolio w earned v. *)
  Definition earns x (w : 'rV[R]_n) (v : R) : Prop := exists2 y, full x y & (y *m w^T) ord0 ord0 = v.
End SpecGen.
