(** * Vocabulary for the properties of factor_model.py. *)
From Coq Require Import Reals ZArith String List.
Set Warnings "-notation-overridden,-ambiguous-paths".
From mathcomp Require Import all_ssreflect all_algebra.
From Verif Require Import RStruct MatR Num Py Ewma Spec SpecFrom FromEwmas ExpUtils SpecRet FactorModel.
Set Implicit Arguments.
Unset Strict Implicit.
Unset Printing Implicit Defensive.
Import GRing.Theory.
Local Open Scope ring_scope.
Delimit Scope R_scope with re.
Delimit Scope Z_scope with z.

Section SpecFactor.
  Context (n k : nat).

  (** The block of a position p >= memory: its first position and its last one (T rows). *)
  Definition block_start (uf memory p : nat) : nat := (memory + (p - memory) %/ uf * uf)%N.
  Definition block_end (uf T t : nat) : nat := minn (t + uf - 1) (T - 1).

  (** The training rows of the block that starts at t. *)
  Definition train_rows (rows : seq 'cV[R]_n) (memory t : nat) : seq 'cV[R]_n := take memory (drop (t - memory) rows).

  (** Row s of the factor returns and of the squared residuals for the exposures E. *)
  Definition factor_return (E : 'M[R]_(k, n)) (rows : seq 'cV[R]_n) (s : nat) : 'cV[R]_k := E *m nth 0 rows s.
  Definition residual (E : 'M[R]_(k, n)) (rows : seq 'cV[R]_n) (s : nat) : 'cV[R]_n :=
    nth 0 rows s - E^T *m factor_return E rows s.

  (** Exponentially weighted mean (half-life 21 rows) of the squared residuals of asset i in rows 0, ..., p. *)
  Definition idio (E : 'M[R]_(k, n)) (rows : seq 'cV[R]_n) (p : nat) (i : 'I_n) : R :=
    ((\sum_(s < p.+1) half_decay 21 ^+ (p - s) * (residual E rows s i ord0 * residual E rows s i ord0))%R /
     (\sum_(s < p.+1) half_decay 21 ^+ (p - s))%R)%re.

  (** The covariance S which iterated_ewma (half-lives [pair], warm-ups k and 2k) issues at row p for the factor returns of the
      rows 0, ..., p; regularised for the first expert. *)
  Definition expert_cov (E : 'M[R]_(k, n)) (times : seq Z) (rows : seq 'cV[R]_n) (p : nat) (pair : option xr * option xr)
             (regularised : bool) (S : 'M[R]_k) : Prop :=
    exists outs o, iterated_ewma (N := XR) (pair_params (N := XR) k (2 * k) None false pair)
                     (xframe (take p.+1 times) [seq E *m r | r <- take p.+1 rows]) = Ok outs /\
      List.In o outs /\ itime o = nth Z0 times p /\
      S = (if regularised then to_matrix k (icov o) + (/ 20)%re *: diag_mx (\row_i to_matrix k (icov o) i i) else to_matrix k (icov o)).

  (** The factor returns start to move early enough: some factor moves at a row from which the warm-up of 2k covariance rows ends
      before position t - 10. *)
  Definition early_move (E : 'M[R]_(k, n)) (rows : seq 'cV[R]_n) (t : nat) : Prop :=
    exists2 s, (s + 2 * k + 9 <= t)%N & factor_return E rows s <> 0.
  Definition all_early (pca : seq 'cV[R]_n -> res 'M[R]_(k, n)) (rows : seq 'cV[R]_n) (uf memory T : nat) : Prop :=
    forall i E, let t := (memory + i * uf)%N in (t < T)%N -> pca (train_rows rows memory t) = Ok E -> early_move E rows t.

  (** The lower Cholesky factors of the experts' precision matrices at row p. *)
  Definition expert_factors (E : 'M[R]_(k, n)) (times : seq Z) (rows : seq 'cV[R]_n) (pairs : seq (option xr * option xr)) (p : nat)
             (F : nat -> 'M[R]_k) : Prop :=
    forall j, (j < size pairs)%N -> exists S, expert_cov E times rows p (nth (None, None) pairs j) (j == 0%N) S /\
      S \in unitmx /\ is_chol (invmx S) (F j).

  (** The last ten rows tell the experts apart: no combination v of the factor returns whitened by the experts' forecasts of
      the row before vanishes in all of the rows p - 9, ..., p. *)
  Definition informative (E : 'M[R]_(k, n)) (times : seq Z) (rows : seq 'cV[R]_n) (pairs : seq (option xr * option xr)) (p : nat) : Prop :=
    forall v : nat -> R, (exists2 j, (j < size pairs)%N & v j <> 0) ->
    exists2 s, (p <= s + 9)%N && (s <= p)%N & forall F, expert_factors E times rows pairs s.-1 F ->
      \sum_(j < size pairs) v j *: ((F j)^T *m factor_return E rows s) <> 0.

  (** What the block that starts at t needs: exposures, factors that move early enough, invertible covariances of every expert
      from ten rows before the block on, informative windows. *)
  Definition healthy_block (pca : seq 'cV[R]_n -> res 'M[R]_(k, n)) (times : seq Z) (rows : seq 'cV[R]_n)
             (pairs : seq (option xr * option xr)) (uf memory t : nat) : Prop :=
    exists E, pca (train_rows rows memory t) = Ok E /\ early_move E rows t /\
      (forall q j S, (t - 10 <= q <= block_end uf (size times) t)%N -> (j < size pairs)%N ->
         expert_cov E times rows q (nth (None, None) pairs j) (j == 0%N) S -> spd S) /\
      (forall p, (t <= p <= block_end uf (size times) t)%N -> informative E times rows pairs p).

  (** The setting of the theorems: at least one factor, positive half-lives with distinct labels, an update frequency of at least
      one, a memory of at least ten rows, one row of returns per date, increasing dates. *)
  Definition factor_setting (label : option xr * option xr -> string) (pairs : seq (option xr * option xr)) (uf memory : nat)
             (times : seq Z) (rows : seq 'cV[R]_n) : Prop :=
    (0 < k)%N /\ positive_halflives pairs /\ List.NoDup (map label pairs) /\ (0 < uf)%N /\ (10 <= memory)%N /\
    increasing times /\ size rows = size times.
End SpecFactor.
