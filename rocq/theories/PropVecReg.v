(** * C105: the stand-alone helpers of experiments/utils/iterated_ewma_vec.py:98-182. *)
From Coq Require Import Reals ZArith List Lia Lra ClassicalEpsilon.
Set Warnings "-notation-overridden,-ambiguous-paths".
From mathcomp Require Import all_ssreflect all_algebra.
From Verif Require Import RStruct MatR Num Py Combination Spectral Regularization SpecReg RegProps RegMain VecReg SpecVecReg VecRegProps PropReg.
Set Implicit Arguments.
Unset Strict Implicit.
Unset Printing Implicit Defensive.
Import GRing.Theory.
Local Open Scope ring_scope.
Delimit Scope R_scope with re.

(** The low-rank approximation of every correlation matrix: same diagonal, positive semidefinite, the matrix itself for a rank
    of n or more, its diagonal for rank 0, the approximation of regularization.py for a rank between 1 and n; a negative rank
    counts from n. *)
Theorem C105_low_rank n (eigh : np_eigh_t n) Rs r out : np_eigh_ok eigh -> regularize_corrs eigh Rs r = Ok out ->
  size out = size Rs /\
  forall j A B, List.nth_error Rs j = Some A -> List.nth_error out j = Some B ->
    (forall i, B i i = A i i) /\
    (psd A -> psd B) /\
    (sym A -> Z.le (Z.of_nat n) r -> B = A) /\
    ((r = Z0 \/ Z.le r (Z.opp (Z.of_nat n))) -> B = diag_mx (\row_i A i i)) /\
    ((Z.le 1 r /\ Z.le r (Z.of_nat n)) -> exists L, regularize_correlation (subset_eigh eigh) A r = Ok L /\ Approximation L = B) /\
    (Z.lt r 0 -> regularize_corrs eigh [:: A] r = regularize_corrs eigh [:: A] (Z.max 0 (Z.add (Z.of_nat n) r))).
Proof. exact (@corrs_spec n eigh Rs r out). Qed.
Print Assumptions C105_low_rank.

Theorem C105_outcome n (eigh : np_eigh_t n) Rs r :
  match regularize_corrs eigh Rs r with
  | Ok _ => Rs <> [::] /\ forall A, List.In A Rs -> eigh A <> None
  | Raise e => (e = ValueError /\ Rs = [::]) \/ (e = LinAlgError /\ exists A, List.In A Rs /\ eigh A = None)
  end.
Proof. exact (@corrs_total n eigh Rs r). Qed.
Print Assumptions C105_outcome.

(** Correlation matrices. *)
Theorem C105_correlations n (Ss : seq 'M[R]_n) : (forall S, List.In S Ss -> psd S /\ forall i, (0 < S i i)%re) ->
  refactor_to_corr Ss = Ok [seq corr S | S <- Ss] /\
  forall S, List.In S Ss -> psd (corr S) /\ (forall i, corr S i i = 1) /\ forall i j, (-1 <= corr S i j <= 1)%re.
Proof. exact (@corr_all n Ss). Qed.
Print Assumptions C105_correlations.

(** Daily realised covariances and variances. *)
Theorem C105_realized n (rs : seq 'cV[R]_n) : size (get_realized_covs rs) = size rs /\ size (get_realized_vars rs) = size rs /\
  forall j C v, List.nth_error (get_realized_covs rs) j = Some C -> List.nth_error (get_realized_vars rs) j = Some v ->
    psd C /\ (\rank C <= 1)%N /\ (forall i, C i i = v i 0) /\
    exists r, List.nth_error rs j = Some r /\ forall a b, C a b = (r a ord0 * r b ord0)%re.
Proof. exact (@realized_spec n rs). Qed.
Print Assumptions C105_realized.

(** ** Cases that meet the hypotheses. *)
Definition np_exact n : np_eigh_t n := fun A =>
  match excluded_middle_informative (exists dU : 'rV[R]_n * 'M[R]_n, is_eig A dU.2 dU.1) with
  | left H => Some (projT1 (constructive_indefinite_description _ H))
  | right _ => None
  end.
Example np_exact_ok n : np_eigh_ok (@np_exact n).
Proof.
  move=> A d U _. rewrite /np_exact. case: excluded_middle_informative => // H [].
  by case: constructive_indefinite_description => -[d' U'] /= He [<- <-].
Qed.
Example np_exact_total n (A : 'M[R]_n) : sym A -> np_exact A <> None.
Proof.
  move=> HA. rewrite /np_exact. case: excluded_middle_informative => // H. exfalso. apply: H.
  have [U [d H]] := spectral HA. by exists (d, U).
Qed.
Example C105_met : exists B, regularize_corrs (@np_exact 2) [:: corr ex_S] (Zpos xH) = Ok [:: B] /\
  refactor_to_corr [:: ex_S] = Ok [:: corr ex_S] /\ psd B /\ forall i, B i i = 1.
Proof.
  have Hp : forall i, (0 < ex_S i i)%re by move=> i; rewrite mxE eqxx; case: ifP => _; lra.
  have HS : forall S, List.In S [:: ex_S] -> psd S /\ forall i, (0 < S i i)%re by move=> S [<-|[]]; split=> //; exact: ex_psd.
  have [E1 E2] := C105_correlations HS. have [Hc [Hd _]] := E2 ex_S (or_introl erefl).
  have := C105_outcome (@np_exact 2) [:: corr ex_S] (Zpos xH). case E : (regularize_corrs _ _ _) => [out|e].
  - have [Hs Hj] := C105_low_rank (@np_exact_ok 2) E. case: out E Hs Hj => [//|B [|//]] E _ Hj _. exists B. split=> //. split=> //.
    have [H1 [H2 _]] := Hj 0%N _ _ erefl erefl. split; first exact: H2. by move=> i; rewrite H1.
  - case=> [[_ //]|[_ [A [[<-|[]] H]]]]. exfalso. by apply: (@np_exact_total 2 (corr ex_S)) => //; case: Hc.
Qed.
Example C105_realized_met : exists C v, List.nth_error (get_realized_covs [:: (0 : 'cV[R]_2); \col_i 3%re]) 1 = Some C /\
  List.nth_error (get_realized_vars [:: (0 : 'cV[R]_2); \col_i 3%re]) 1 = Some v /\ v ord0 ord0 = 9%re.
Proof. eexists; eexists; split; [reflexivity|split; [reflexivity|]]. rewrite !mxE. toR. lra. Qed.
