(** * A binary64 run of iterated_ewma. *)
From Coq Require Import String ZArith Reals Lra Psatz Lia List Bool Arith.
From Flocq Require Import Core BinarySingleNaN.
From Verif Require Import Num Py Ewma Spec SpecEwma Ieee SpecRound RoundStep RoundDecay RoundEx.
Import ListNotations.
Local Open Scope R_scope.

Definition fhalf : b64 := fdiv f1 f2.
(** A toy library: exp always 1/2, log always 1, powers by repeated multiplication. *)
Definition toy : libm := {| m_exp := fun _ => fhalf; m_ln := fun _ => f1; m_pow := fun b k => Nat.iter k (fmul b) f1 |}.
Definition td_f : frame (N := IEEE toy) time :=
  mkFrame (N := IEEE toy) [1; 2; 5]%Z ["A"; "B"]%string [[f1; f2]; [Bopp f1; f2]; [f1; Bopp f2]].
Definition td_P : params (N := IEEE toy) := mkParams (N := IEEE toy) (Some f1) (Some f1) 1 1 false None None None true.
Definition td_check : bool :=
  match iterated_ewma (N := IEEE toy) td_P td_f with
  | Ok [_; _; o] => Beqb (nth 0 (ivol o) (B754_nan : b64)) f1 && Beqb (nth 1 (ivol o) (B754_nan : b64)) f2 &&
                 is_finite (nth 0 (ivol o) (B754_nan : b64)) && is_finite (nth 1 (ivol o) (B754_nan : b64)) &&
                 is_finite (fcell (L := toy) (icov o) 0 0) && is_finite (fcell (L := toy) (icov o) 1 1) && is_finite (fcell (L := toy) (icov o) 0 1)
  | _ => false
  end.
Lemma td_ok : td_check = true.
Proof. vm_compute. reflexivity. Qed.
Lemma td_valid : valid_returns (N := IEEE toy) td_f.
Proof.
  split; [split; [reflexivity|]|split].
  - constructor; [reflexivity|]. constructor; [reflexivity|]. constructor; [reflexivity|]. constructor.
  - split; [reflexivity|]. split; [reflexivity|]. exact I.
  - discriminate.
Qed.
Lemma td_run : exists outs o, iterated_ewma (N := IEEE toy) td_P td_f = Ok outs /\ In o outs /\
  fval (nth 0 (ivol o) (B754_nan : b64)) = 1 /\ fval (nth 1 (ivol o) (B754_nan : b64)) = 2 /\
  isnum (nth 0 (ivol o) (B754_nan : b64)) /\ isnum (nth 1 (ivol o) (B754_nan : b64)) /\
  isnum (fcell (L := toy) (icov o) 0 0) /\ isnum (fcell (L := toy) (icov o) 1 1).
Proof.
  generalize td_ok. unfold td_check. destruct (iterated_ewma (N := IEEE toy) td_P td_f) as [outs|e]; [|intros H; discriminate H].
  destruct outs as [|o1 [|o2 [|o [|? ?]]]]; intros H; try discriminate H. repeat rewrite andb_true_iff in H.
  destruct H as ((((((H1 & H2) & H3) & H4) & H5) & H6) & H7). exists [o1; o2; o], o. split; [reflexivity|]. split; [simpl; auto|].
  rewrite (Beqb_correct 53 1024 _ f1 H3 f1_num) in H1. rewrite (Beqb_correct 53 1024 _ f2 H4 (proj1 f2_val)) in H2.
  assert (R1 : fval (nth 0 (ivol o) (B754_nan : b64)) = fval f1) by (revert H1; unfold fval; case Req_bool_spec; [auto|discriminate]).
  assert (R2 : fval (nth 1 (ivol o) (B754_nan : b64)) = fval f2) by (revert H2; unfold fval; case Req_bool_spec; [auto|discriminate]).
  split; [rewrite R1; apply f1_val|]. split; [rewrite R2; apply f2_val|]. repeat split; assumption.
Qed.
