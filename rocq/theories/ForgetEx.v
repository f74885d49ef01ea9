(** * A concrete case for C138. *)
From Coq Require Import String Reals Lra Psatz List Bool ZArith Arith Lia.
From Verif Require Import Num Py ListFacts Ewma Spec SpecEwma EwmaReal EwmaClosed EwmaProps EwmaProps3 ExEwma SpecForget.
Import ListNotations.
Local Open Scope R_scope.

(** Five days, two assets of constant volatility 1 and 2. *)
Definition fg_x (j k : nat) : R := match j with O => 1 | _ => match k with 1%nat | 4%nat => -2 | _ => 2 end end.
Definition fg_f : frame (N := XR) time := mkFrame [1;2;3;4;7]%Z ["A";"B"]%string
  [[Fin 1; Fin 2]; [Fin 1; Fin (-2)]; [Fin 1; Fin 2]; [Fin 1; Fin 2]; [Fin 1; Fin (-2)]].
Lemma fg_sq j k : fg_x j k ^ 2 = (if j then 1 else 2) ^ 2.
Proof. destruct j as [|j]; [reflexivity|]. unfold fg_x. destruct k as [|[|[|[|[|k]]]]]; ring. Qed.
Lemma fg_vol d j k : ewstd 2 (fun s => fg_x j (d + s)%nat) k = if j then 1 else 2.
Proof.
  unfold ewstd. rewrite (EwmaClosed.ewavg_ext _ _ (fun _ => (if j then 1 else 2) ^ 2)) by (intros s _; apply fg_sq). rewrite ewavg_const by (apply decay_bounds; lra).
  apply sqrt_pow2. destruct j; lra.
Qed.
Lemma fg_vol0 j k : ewstd 2 (fg_x j) k = if j then 1 else 2. Proof. exact (fg_vol 0 j k). Qed.
Lemma fg_mom d p i j : std_moment 2 3 p (fun j k => fg_x j (d + k)%nat) i j j = 1.
Proof.
  unfold std_moment. rewrite (EwmaClosed.ewavg_ext _ _ (fun _ => 1)).
  - apply ewavg_const. apply decay_bounds; lra.
  - intros s _. unfold std_return. rewrite fg_vol. transitivity (fg_x j (d + (p + s))%nat ^ 2 / (if j then 1 else 2) ^ 2); [destruct j; field|]. rewrite fg_sq. destruct j; field.
Qed.
Lemma fg_case : let P := ex_P false 2 1 None true in let p := first_pos (min_periods_vola P) in let q := first_pos (min_periods_cov P) in
  let x' := fun j k => fg_x j (2 + k)%nat in
  settings P 2 3 2 5 None /\ use_mean P = false /\ valid_returns fg_f /\ returns_are (nan_to_num P) fg_f fg_x /\ returns_are false fg_f fg_x /\
  (2 + (p + q) < length (findex fg_f))%nat /\
  (forall j k, (j < 2)%nat -> (k < 5)%nat -> Rabs (fg_x j k) <= 2) /\
  (forall j k, (j < 2)%nat -> (p <= k < 5)%nat -> 1 <= ewstd 2 (fg_x j) k) /\
  (forall j k, (j < 2)%nat -> (p <= k)%nat -> (2 + k < 5)%nat -> 1 <= ewstd 2 (x' j) k) /\
  (forall j i, (j < 2)%nat -> (q <= i)%nat -> (p + i < 5)%nat -> 1 <= std_moment 2 3 p fg_x i j j) /\
  (forall j i, (j < 2)%nat -> (q <= i)%nat -> (2 + p + i < 5)%nat -> 1 <= std_moment 2 3 p x' i j j).
Proof.
  intros P p q x'. assert (R0 : forall b, returns_are b fg_f fg_x) by (intros b k j Hk Hj; simpl in Hk, Hj; destruct j as [|[|j]]; [| |lia]; destruct k as [|[|[|[|[|k]]]]]; try lia; simpl; auto).
  split; [apply ex_settings|]. split; [reflexivity|].
  split; [split; [split; [reflexivity|repeat constructor]|]; split; [simpl; lia|discriminate]|]. split; [apply R0|]. split; [apply R0|].
  split; [cbn; lia|]. split; [intros j k Hj Hk; apply Rabs_le; destruct j; [simpl; lra|]; unfold fg_x; destruct k as [|[|[|[|[|k]]]]]; lra|].
  split; [intros j k _ _; rewrite fg_vol0; destruct j; lra|]. split; [intros j k _ _ _; unfold x'; rewrite fg_vol; destruct j; lra|].
  split; [intros j i _ _ _; right; symmetry; exact (fg_mom 0 p i j)|]. intros j i _ _ _. unfold x'. rewrite fg_mom. lra.
Qed.
