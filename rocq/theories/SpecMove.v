(** * Vocabulary: the same data in other assets. *)
From Coq Require Import Reals ZArith String List.
Set Warnings "-notation-overridden,-ambiguous-paths".
From mathcomp Require Import all_ssreflect all_algebra.
From Verif Require Import RStruct MatR SpecCombR.
Set Implicit Arguments.
Unset Strict Implicit.
Unset Printing Implicit Defensive.
Import GRing.Theory.
Local Open Scope ring_scope.
Delimit Scope R_scope with re.

(** Covariances S become T S T^T, means and returns x become T x. *)
Definition move_covs n (T : 'M[R]_n) (s : covs n) : covs n :=
  List.map (fun ks => (fst ks, List.map (fun tS => (fst tS, T *m snd tS *m T^T)) (snd ks))) s.
Definition move_mus n (T : 'M[R]_n) (m : mus n) : mus n :=
  List.map (fun km => (fst km, List.map (fun tm => (fst tm, T *m snd tm)) (snd km))) m.
Definition move_rets n (T : 'M[R]_n) (r : rets n) : rets n := List.map (fun tr => (fst tr, T *m snd tr)) r.

(** Units: asset i is measured in 1 / d i. *)
Definition unit_cov n (d : 'I_n -> R) (S : 'M[R]_n) : 'M[R]_n := \matrix_(i, j) (d i * d j * S i j).
Definition unit_vec n (d : 'I_n -> R) (v : 'cV[R]_n) : 'cV[R]_n := \col_i (d i * v i 0).
Definition unit_covs n (d : 'I_n -> R) (s : covs n) : covs n :=
  List.map (fun ks => (fst ks, List.map (fun tS => (fst tS, unit_cov d (snd tS))) (snd ks))) s.
Definition unit_mus n (d : 'I_n -> R) (m : mus n) : mus n :=
  List.map (fun km => (fst km, List.map (fun tm => (fst tm, unit_vec d (snd tm))) (snd km))) m.
Definition unit_rets n (d : 'I_n -> R) (r : rets n) : rets n := List.map (fun tr => (fst tr, unit_vec d (snd tr))) r.
