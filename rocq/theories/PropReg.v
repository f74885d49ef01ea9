(** * Properties of regularize_covariance (C31-C33, C57, C58), cvx/covariance/regularization.py:15-74.

    Model: Regularization.v.  Vocabulary: SpecReg.v; [psd], [sym] in MatR.v.  The eigen-solver (scipy.linalg.eigh) is an
    argument; [eigh_ok]/[eigh_total] is its contract, met by [eigh_exact] (RegProps.v). *)
From Coq Require Import Reals Lra ZArith String List Lia.
Set Warnings "-notation-overridden,-ambiguous-paths".
From mathcomp Require Import all_ssreflect all_algebra.
From Verif Require Import RStruct MatR Num Py Combination Spectral Regularization SpecReg RegProps RegOpt RegMain.
Set Implicit Arguments.
Unset Strict Implicit.
Unset Printing Implicit Defensive.
Import GRing.Theory.
Local Open Scope ring_scope.
Delimit Scope R_scope with re.

(** C31: every yielded matrix has the diagonal of its input and is symmetric, whatever the eigen-solver returns; the
    labels are those of the input. *)
Theorem C31_variances : forall n (eigh : eigh_t n) sigmas r items ex j t it,
  regularize_covariance eigh sigmas r false = (items, ex) -> List.nth_error items j = Some (t, it) ->
  exists fr S M, List.nth_error sigmas j = Some (t, fr) /\ s_val fr = Some S /\ it = Dense (s_cols fr) (s_cols fr) M /\
    (forall i, M i i = S i i) /\ sym M.
Proof. exact main_diag. Qed.
Print Assumptions C31_variances.

(** C32 *)
Theorem C32_factor_structure : forall n (eigh : eigh_t n) sigmas r items ex j t it fr S,
  eigh_ok eigh -> regularize_covariance eigh sigmas r false = (items, ex) -> List.nth_error items j = Some (t, it) ->
  List.nth_error sigmas j = Some (t, fr) -> s_val fr = Some S -> psd S ->
  exists M, it = Dense (s_cols fr) (s_cols fr) M /\ psd M /\
    (exists (F : 'M[R]_(n, Z.to_nat r)) d, M = factor_model F d /\ forall i, (0 <= d i ord0)%re) /\
    (r = Z.of_nat n -> M = S).
Proof. exact main_factor. Qed.
Print Assumptions C32_factor_structure.

(** C33: both formats yield the same dates and stop alike; whatever equally many eigenvalues and eigenvectors the
    solver returns, F F^T + diag(d) is the dense matrix, provided no column of F is NaN; with a correct solver on a positive
    semidefinite input no column is NaN, there are r of them, and d >= 0. *)
Theorem C33_same_run : forall n (eigh : eigh_t n) sigmas r ds ed fs ef,
  regularize_covariance eigh sigmas r false = (ds, ed) -> regularize_covariance eigh sigmas r true = (fs, ef) ->
  ed = ef /\ List.length ds = List.length fs /\ List.map fst ds = List.map fst fs.
Proof. exact main_formats. Qed.
Print Assumptions C33_same_run.

Theorem C33_same_matrix : forall n (eigh : eigh_t n) sigmas r ds ed fs ef j t it it',
  (forall A lo hi lam Q, eigh A lo hi = Some (lam, Q) -> size lam = size Q) ->
  regularize_covariance eigh sigmas r false = (ds, ed) -> regularize_covariance eigh sigmas r true = (fs, ef) ->
  List.nth_error ds j = Some (t, it) -> List.nth_error fs j = Some (t, it') ->
  exists cols M F d, it = Dense cols cols M /\ it' = Factored cols F cols d /\
    forall f, F = map Some f -> M = factor_model (of_cols f) d.
Proof. exact main_same. Qed.
Print Assumptions C33_same_matrix.

Theorem C33_factors : forall n (eigh : eigh_t n) sigmas r fs ef j t it fr S,
  eigh_ok eigh -> regularize_covariance eigh sigmas r true = (fs, ef) -> List.nth_error fs j = Some (t, it) ->
  List.nth_error sigmas j = Some (t, fr) -> s_val fr = Some S -> psd S ->
  exists f d, it = Factored (s_cols fr) (map Some f) (s_cols fr) d /\ size f = Z.to_nat r /\ forall i, (0 <= d i ord0)%re.
Proof. exact main_lowrank. Qed.
Print Assumptions C33_factors.

(** C57: the factors are eigen-directions of the correlation matrix, mutually orthogonal, in descending order of the
    variance they explain, and no other r factors explain more. *)
Theorem C57_principal_factors : forall n (eigh : eigh_t n) sigmas r fs ef j t F d ci ci' fr S,
  eigh_ok eigh -> regularize_covariance eigh sigmas r true = (fs, ef) ->
  List.nth_error fs j = Some (t, Factored ci F ci' d) -> List.nth_error sigmas j = Some (t, fr) -> s_val fr = Some S -> psd S ->
  exists f lam, F = map Some f /\ size f = Z.to_nat r /\ size lam = Z.to_nat r /\
    (forall k l, (k <= l)%N -> (l < Z.to_nat r)%N -> (nth 0 lam l <= nth 0 lam k)%re) /\
    (forall k, (k < Z.to_nat r)%N -> corr S *m direction S f k = nth 0 lam k *: direction S f k) /\
    (forall k l, (k < Z.to_nat r)%N -> (l < Z.to_nat r)%N ->
       \sum_a (load f k a * load f l a / S a a)%re = if k == l then nth 0 lam k else 0) /\
    forall G : 'M[R]_(n, Z.to_nat r), psd (S - G *m G^T) -> (explained S G <= explained S (of_cols f))%re.
Proof. exact main_principal. Qed.
Print Assumptions C57_principal_factors.

(** C58: which inputs raise, and what has been yielded before. *)
Theorem C58_outcome : forall n (eigh : eigh_t n) sigmas r b items ex,
  eigh_total eigh -> (forall t fr S, List.In (t, fr) sigmas -> s_val fr = Some S -> sym S) ->
  regularize_covariance eigh sigmas r b = (items, ex) ->
  match ex with
  | None => List.map fst items = List.map fst sigmas /\
      (sigmas <> nil -> (Z.le 1 r /\ Z.le r (Z.of_nat n))) /\ forall t fr, List.In (t, fr) sigmas -> good_frame fr
  | Some e => e = ValueError /\ exists d1 t fr d2, sigmas = List.app d1 ((t, fr) :: d2) /\ List.map fst items = List.map fst d1 /\
      (~ (Z.le 1 r /\ Z.le r (Z.of_nat n)) \/ ~ good_frame fr)
  end.
Proof. exact main_outcome. Qed.
Print Assumptions C58_outcome.

(** ** A case that meets the hypotheses: [[4, 2], [2, 9]], rank 1, an exact eigen-solver; followed by a matrix with a
    zero variance. *)
Definition ex_S : 'M[R]_2 := \matrix_(i, j) (if i == j then (if i == ord0 then 4 else 9) else 2)%re.
Definition ex_fr : sframe 2 := mkS ("A" :: "B" :: nil)%string (Some ex_S).
Definition ex_bad : sframe 2 := mkS ("A" :: "B" :: nil)%string (Some 0).
Example ex_sym : sym ex_S.
Proof. apply/matrixP => i j. rewrite !mxE [in LHS]eq_sym. by case: eqP => // ->. Qed.
Example ex_psd : psd ex_S.
Proof.
  split; first exact: ex_sym. move=> x.
  have -> : qf ex_S x = (4 * (x ord0 ord0 * x ord0 ord0) + 2 * 2 * (x ord0 ord0 * x (lift ord0 ord0) ord0) + 9 * (x (lift ord0 ord0) ord0 * x (lift ord0 ord0) ord0))%re.
    rewrite /qf mxE !big_ord_recl big_ord0 !mxE !big_ord_recl !big_ord0 !mxE /=.
    move: (x ord0 0) (x (lift ord0 ord0) 0) => a b. toR. eqR. ring.
  move: (x ord0 ord0) (x (lift ord0 ord0) ord0) => a b.
  have := Rle_0_sqr (2 * a + b)%re. have := Rle_0_sqr b. rewrite /Rsqr. nra.
Qed.
Example ex_run b : exists it, regularize_covariance (@eigh_exact 2) ((Z0, ex_fr) :: ((Zpos xH), ex_bad) :: nil) (Zpos xH) b =
  ((Z0, it) :: nil, Some ValueError).
Proof.
  case E : (regularize_covariance _ _ _ _) => [items ex].
  have Hb : regularize_one (@eigh_exact 2) (Zpos xH) b ex_bad = Raise ValueError.
    apply: reg_bad. right; left. exists 0, ord0. split=> //. rewrite mxE. by right.
  move: E. rewrite /regularize_covariance /=. rewrite Hb. case E1 : (regularize_one _ _ _ ex_fr) => [it|e] /=.
    by case=> <- <-; exists it.
  exfalso. have := reg_raises (@eigh_exact_total 2) _ E1. case; first by move=> S [<-]; exact: ex_sym.
  move=> _ [//|[[S [i [[<-]]]]|]]; last by lia. rewrite mxE eqxx. case: ifP => _; lra.
Qed.
Example C31_C58_met : exists items it, regularize_covariance (@eigh_exact 2) ((Z0, ex_fr) :: ((Zpos xH), ex_bad) :: nil) (Zpos xH) true = (items, Some ValueError) /\
  eigh_ok (@eigh_exact 2) /\ eigh_total (@eigh_exact 2) /\ List.nth_error items 0 = Some (Z0, it) /\
  List.nth_error ((Z0, ex_fr) :: ((Zpos xH), ex_bad) :: nil) 0 = Some (Z0, ex_fr) /\ s_val ex_fr = Some ex_S /\ psd ex_S /\
  (forall A lo hi lam Q, (@eigh_exact 2) A lo hi = Some (lam, Q) -> size lam = size Q) /\
  (exists items', regularize_covariance (@eigh_exact 2) ((Z0, ex_fr) :: ((Zpos xH), ex_bad) :: nil) (Zpos xH) false = (items', Some ValueError)).
Proof.
  case: (ex_run true) => it E. case: (ex_run false) => it' E'. exists [:: (Z0, it)], it.
  split=> //. split; first exact: eigh_exact_ok. split; first exact: eigh_exact_total. split=> //. split=> //. split=> //.
  split; first exact: ex_psd. split; last by eexists; exact: E'.
  move=> A lo hi lam Q. rewrite /eigh_exact. case: ClassicalEpsilon.excluded_middle_informative => // H [<- <-]. by rewrite !size_map.
Qed.
