(** * Vocabulary for the properties of regularization.py. *)
From Coq Require Import Reals ZArith String List.
Set Warnings "-notation-overridden,-ambiguous-paths".
From mathcomp Require Import all_ssreflect all_algebra.
From Verif Require Import RStruct MatR Num Py Regularization.
Set Implicit Arguments.
Unset Strict Implicit.
Unset Printing Implicit Defensive.
Import GRing.Theory.
Local Open Scope ring_scope.
Delimit Scope R_scope with re.

(** An orthonormal eigendecomposition with eigenvalues in ascending order: the columns of U are the eigenvectors. *)
Definition is_eig n (A U : 'M[R]_n) (d : 'rV[R]_n) : Prop :=
  U^T *m U = 1%:M /\ A *m U = U *m diag_mx d /\ forall i j : 'I_n, (i <= j)%N -> Rle (d 0 i) (d 0 j).

(** The contract of eigh(subset_by_index=[lo, hi]) on symmetric matrices: eigenvalues number lo..hi of such a
    decomposition with their eigenvectors. *)
Definition index_in n (lo hi : Z) (i : 'I_n) : bool := (Z.leb lo (Z.of_nat i) && Z.leb (Z.of_nat i) hi)%bool.
Definition eigh_ok n (eigh : eigh_t n) : Prop := forall A lo hi lam Q, sym A -> eigh A lo hi = Some (lam, Q) ->
  exists U d, is_eig A U d /\
    lam = [seq d 0 i | i <- enum 'I_n & index_in lo hi i] /\
    Q = [seq col i U | i <- enum 'I_n & index_in lo hi i].
Definition eigh_total n (eigh : eigh_t n) : Prop := forall A lo hi, sym A -> eigh A lo hi <> None.

(** F F^T + diag(d). *)
Definition factor_model n k (F : 'M[R]_(n, k)) (d : 'cV[R]_n) : 'M[R]_n := F *m F^T + diag_mx d^T.

(** Gaussian log-likelihood (per observation, without the constant) of data with second moments Sigma under
    N(0, V). *)
Definition loglik n (Sigma V : 'M[R]_n) : R := (- / 2 * (ln (\det V) + \tr (invmx V *m Sigma)))%re.

Definition pos_vec n (d : 'cV[R]_n) : Prop := forall i, Rlt R0 (d i 0).

(** Correlation matrix of a covariance matrix: S_ij / sqrt(S_ii S_jj). *)
Definition corr n (S : 'M[R]_n) : 'M[R]_n := \matrix_(i, j) (S i j / sqrt (S i i * S j j))%re.

(** Sum over the assets of the fraction of the variance S_ii explained by the factors G. *)
Definition explained n k (S : 'M[R]_n) (G : 'M[R]_(n, k)) : R := \sum_i ((G *m G^T) i i / S i i)%re.

(** A covariance frame that has only finite entries and whose variances are positive. *)
Definition good_frame n (fr : sframe n) : Prop := exists S, s_val fr = Some S /\ forall i, (0 < S i i)%re.

(** Loading of asset a on factor k; the k-th factor in units of volatility. *)
Definition load n (f : seq 'cV[R]_n) (k : nat) (a : 'I_n) : R := (nth 0 f k) a 0.
Definition direction n (S : 'M[R]_n) (f : seq 'cV[R]_n) (k : nat) : 'cV[R]_n := \col_a (load f k a / sqrt (S a a))%re.

(** The EM update of Rubin and Thayer for the factor model: with b = F^T (F F^T + diag d)^-1 (the regression of the factors
    on the data) and C = b S b^T + I - b F (their expected second moments), F' = S b^T C^-1 and d' = diag (S - F' b S). *)
Definition rubin_thayer n k (S : 'M[R]_n) (p p' : 'M[R]_(n, k) * 'cV[R]_n) : Prop :=
  let b := p.1^T *m invmx (factor_model p.1 p.2) in
  let C := b *m S *m b^T + 1%:M - b *m p.1 in
  C \in unitmx /\ p'.1 *m C = S *m b^T /\ forall i, p'.2 i 0 = (S - p'.1 *m b *m S) i i.
