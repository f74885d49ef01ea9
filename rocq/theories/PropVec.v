(** * Property theorems for iterated_ewma_vec.py (and realized_ewma, which calls it). *)
From Coq Require Import String Reals Lra List Bool ZArith Arith Lia.
From Verif Require Import Num Py Ewma Spec SpecEwma VecEwma SpecVec VecProps.
Import ListNotations.
Local Open Scope R_scope.

(** C38: every item but the first, in closed form. *)
Theorem C38_items : forall r c ts u h clip rc omp mp, 0 < h -> clip_is clip rc -> ts <> [] ->
  (rc <> None -> omp = Some mp /\ (0 < mp)%nat) ->
  vec_ewma mmap2 (daily r c ts u) (Fin h) clip omp =
  (tl (daily r c ts (fun i j => limited_avg h mp rc (u i j))), None).
Proof.
  intros r c ts u h clip rc omp mp H1 H2 H3 H4. apply vec_items; auto. destruct rc; simpl; auto. apply H4; discriminate.
Qed.
Print Assumptions C38_items.
Theorem C38_plain : forall h mp u k, 0 < h -> limited_avg h mp None u k = ewavg (decay h) u k.
Proof. exact limited_none. Qed.
Print Assumptions C38_plain.
(** The library's recursion on the same data, with the same limit, gives the same items from its first unmasked one on. *)
Theorem C38_agrees_with_library : forall r c ts u h clip rc omp mp, 0 < h -> clip_is clip rc -> ts <> [] ->
  (rc <> None -> omp = Some mp /\ (0 < mp)%nat) ->
  exists lib items,
    general mmap mmap2 (map snd (daily r c ts u)) ts (Some (Fin h)) None (fun x : mat => x) mp clip = Ok lib /\
    vec_ewma mmap2 (daily r c ts u) (Fin h) clip omp = (items, None) /\
    length items = (length ts - 1)%nat /\ length lib = length ts /\
    forall k, (1 <= k < length ts)%nat -> (mp <= k + 1)%nat -> nth_error items (k - 1) = nth_error lib k.
Proof.
  intros r c ts u h clip rc omp mp H1 H2 H3 H4. apply vec_agrees with rc; auto. destruct rc; simpl; auto. apply H4; discriminate.
Qed.
Print Assumptions C38_agrees_with_library.
Theorem C38_keeps_psd : forall h mp n (u : nat -> nat -> nat -> R) k, 0 < h ->
  (forall s, (s <= k)%nat -> forall x, 0 <= rsum n (fun i => rsum n (fun j => x i * x j * u i j s))) ->
  forall x, 0 <= rsum n (fun i => rsum n (fun j => x i * x j * limited_avg h mp None (u i j) k)).
Proof. exact limited_psd. Qed.
Print Assumptions C38_keeps_psd.
Theorem C38_empty : forall (h : xr) clip omp, vec_ewma (V := mat) mmap2 [] h clip omp = ([], Some IndexError).
Proof. intros; apply vec_empty. Qed.
Print Assumptions C38_empty.
Theorem C38_needs_min_periods : forall (N : Num) V vm (y : list (Z * V)) h c omp,
  (2 <= length y)%nat -> nis0 c = false -> (omp = None \/ omp = Some 0%nat) ->
  vec_ewma vm y h (Some c) omp = ([], Some AssertionError).
Proof. exact @vec_needs_periods. Qed.
Print Assumptions C38_needs_min_periods.
Example C38_case : clip_is (Some (Fin 4)) (Some 4) /\ [1%Z; 2%Z; 3%Z] <> [] /\
  (Some 4 <> None -> Some 1%nat = Some 1%nat /\ (0 < 1)%nat) /\
  length (fst (vec_ewma mmap2 (daily 2 2 [1%Z; 2%Z; 3%Z] (fun i j s => INR (i + j + s))) (Fin 5) (Some (Fin 4)) (Some 1%nat))) = 2%nat.
Proof.
  assert (H : clip_is (Some (Fin 4)) (Some 4)) by (split; auto; lra).
  split; [exact H|]. split; [discriminate|]. split; [intros; split; auto; lia|].
  rewrite (C38_items 2 2 _ _ 5 _ (Some 4) _ 1%nat) by (auto; try lra; try discriminate; intros; try (split; auto; lia)). reflexivity.
Qed.

(** C67: with clip_at, a negative covariance is never corrected by data again: the observation is replaced by c times the
    estimate, which therefore runs away exponentially for c > 1. *)
Theorem C67_runaway : forall h mp c u k d, 0 < h -> 1 <= c -> (mp <= k)%nat -> limited_avg h mp (Some c) u k < 0 ->
  limited_avg h mp (Some c) u (k + d) <= (1 + (1 - decay h) * (c - 1)) ^ d * limited_avg h mp (Some c) u k.
Proof. exact limited_runaway. Qed.
Print Assumptions C67_runaway.
Theorem C67_data_ignored : forall h mp c u v k d, 0 < h -> 1 <= c -> (mp <= k)%nat -> (forall s, (s <= k)%nat -> u s = v s) ->
  limited_avg h mp (Some c) u k < 0 -> limited_avg h mp (Some c) u (k + d) = limited_avg h mp (Some c) v (k + d).
Proof. exact limited_same_future. Qed.
Print Assumptions C67_data_ignored.
(** Two assets that move exactly opposite every day: the items stop being covariances as soon as the limit applies. *)
Theorem C67_not_psd : forall h mp c ts k item, 0 < h -> 1 < c -> (0 < mp < k)%nat ->
  nth_error (fst (vec_ewma mmap2 (daily 2 2 ts (fun i j _ => if Nat.eqb i j then 1 else -1)) (Fin h) (Some (Fin c)) (Some mp))) (k - 1) =
    Some (nth k ts 0%Z, item) ->
  exists e, item = [[Fin 1; Fin e]; [Fin e; Fin 1]] /\ e < -1.
Proof. exact anti_items. Qed.
Print Assumptions C67_not_psd.
Example C67_case : exists item,
  nth_error (fst (vec_ewma mmap2 (daily 2 2 [1%Z; 2%Z; 3%Z] (fun i j _ => if Nat.eqb i j then 1 else -1)) (Fin 10) (Some (Fin 4)) (Some 1%nat))) (2 - 1) =
    Some (nth 2 [1%Z; 2%Z; 3%Z] 0%Z, item).
Proof.
  assert (H : clip_is (Some (Fin 4)) (Some 4)) by (split; auto; lra).
  rewrite (C38_items 2 2 _ _ 10 _ (Some 4) _ 1%nat) by (auto; try lra; try discriminate; intros; try (split; auto; lia)).
  eexists. reflexivity.
Qed.

(** C68: iterated_ewma of this module cannot be used at all. *)
Theorem C68_always_raises : forall (N : Num) X (rest : mat -> res X) returns h mpv mean clip,
  vec_iterated_ewma rest returns h mpv mean clip = Raise TypeError.
Proof. exact @vec_iterated_raises. Qed.
Print Assumptions C68_always_raises.
