(** * Concrete inputs for C137. *)
From Coq Require Import String Reals Lra Psatz List Bool ZArith Arith Lia.
From Verif Require Import Num Py ListFacts Ewma Spec SpecEwma EwmaReal EwmaClosed EwmaProps EwmaAny CmPos ExEwma SpecClip ClipMono.
Import ListNotations.
Local Open Scope R_scope.

Definition cl_x (j k : nat) : R := nth k [1; 1; 10] 0.
Definition cl_f : frame (N := XR) time := mkFrame [1;2;3]%Z ["A"]%string [[Fin 1]; [Fin 1]; [Fin 10]].
Lemma cl_case : valid_returns cl_f /\ returns_are false cl_f cl_x /\ fvals cl_f <> [] /\ clip_is (Some (Fin 1)) (Some 1) /\
  clip_is None None /\ tighter (Some 1) None /\
  exists v v' s s', volatility cl_f (Some (Fin 2)) 1 (Some (Fin 1)) = Ok v /\ volatility cl_f (Some (Fin 2)) 1 None = Ok v' /\
    entry v 2 0 = Fin s /\ entry v' 2 0 = Fin s' /\ s < s'.
Proof.
  assert (V : valid_returns cl_f) by (split; [split; [reflexivity|repeat constructor]|]; split; [simpl; lia|discriminate]).
  assert (X : returns_are false cl_f cl_x) by (intros k j Hk Hj; simpl in Hk, Hj; destruct j; [|lia]; destruct k as [|[|[|k]]]; try lia; simpl; auto).
  assert (NE : fvals cl_f <> []) by discriminate. assert (C : clip_is (Some (Fin 1)) (Some 1)) by (split; auto; lra). assert (C' : clip_is None None) by (left; auto).
  split; [exact V|]. split; [exact X|]. split; [exact NE|]. split; [exact C|]. split; [exact C'|]. split; [exact I|].
  destruct (volatility_path cl_f cl_x 2 1 _ _ V X NE ltac:(lra) C) as (v & V1 & V2 & V3 & V4). destruct (volatility_path cl_f cl_x 2 1 _ _ V X NE ltac:(lra) C') as (v' & W1 & W2 & W3 & W4).
  exists v, v', (sqrt (winsor_var 2 1 (Some 1) (cl_x 0) 2)), (sqrt (winsor_var 2 1 None (cl_x 0) 2)). split; [exact V1|]. split; [exact W1|].
  split; [apply (V4 2%nat 0%nat); cbn; lia|]. split; [apply (W4 2%nat 0%nat); cbn; lia|].
  apply sqrt_lt_1_alt. split; [apply winsor_nonneg; lra|]. destruct (eweight_own 2 1 ltac:(lra)) as [A1 A2]. destruct (eweight_own 2 2 ltac:(lra)) as [B1 B2].
  cbn [winsor_var Nat.leb]. cbv zeta. set (w1 := eweight (decay 2) 1 1) in *. set (w2 := eweight (decay 2) 2 2) in *.
  replace (cl_x 0 0) with 1 by reflexivity. replace (cl_x 0 1) with 1 by reflexivity. replace (cl_x 0 2) with 10 by reflexivity.
  replace ((1 - w1) * 1 ^ 2 + w1 * 1 ^ 2) with 1 by ring. rewrite Rmin_right by lra. nra.
Qed.
Lemma cl_ordinary : valid_returns ex_g /\ returns_are false ex_g ex_x /\ fvals ex_g <> [] /\ (first_pos 1 + 2 < length (findex ex_g))%nat /\
  (forall s, (1 <= s)%nat -> (s < first_pos 1 + 2)%nat -> ex_x 0 (S s) ^ 2 <= 3 ^ 2 * ewavg (decay 2) (fun t => ex_x 0 t ^ 2) s).
Proof.
  split; [apply ex_valid|]. split; [apply ex_returns_g|]. split; [discriminate|]. split; [cbn; lia|]. intros s H1 H2. assert (s = 1%nat) by (unfold first_pos in H2; simpl in H2; lia). subst s.
  pose proof (decay_bounds 2 ltac:(lra)) as Hb. set (b := decay 2) in *. unfold ewavg, ex_x. simpl.
  match goal with |- _ <= _ * ?e => replace e with 1 by (field; lra) end. lra.
Qed.
Lemma cl_items : settings (ex_P false 1 1 (Some (Fin 3)) true) 2 3 2 5 (Some 3) /\ settings (ex_P false 1 1 None true) 2 3 2 5 None /\
  valid_returns ex_f /\ returns_are true ex_f ex_x /\
  exists outs outs' o o', iterated_ewma (ex_P false 1 1 (Some (Fin 3)) true) ex_f = Ok outs /\ iterated_ewma (ex_P false 1 1 None true) ex_f = Ok outs' /\
    In o outs /\ In o' outs' /\ itime o = itime o'.
Proof.
  split; [apply ex_settings_clip|]. split; [apply ex_settings|]. split; [apply (ex_valid NaN)|]. split; [apply ex_returns|].
  destruct (ex_run_false (Some (Fin 3)) (Some 3) 1 1 ltac:(lia) ltac:(lia) ltac:(auto)) as (outs & O1 & O2).
  destruct (ex_run_false None None 1 1 ltac:(lia) ltac:(lia) ltac:(auto)) as (outs' & Q1 & Q2).
  destruct outs as [|o outs]; [discriminate|]. destruct outs' as [|o' outs']; [discriminate|]. exists (o :: outs), (o' :: outs'), o, o'.
  split; [exact O1|]. split; [exact Q1|]. split; [left; reflexivity|]. split; [left; reflexivity|]. cbn in O2, Q2. congruence.
Qed.
