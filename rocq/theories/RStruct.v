(** * The Coq real numbers as a mathcomp field (so that mathcomp matrices over R can be used). *)
From Coq Require Import Reals Lra Epsilon.
Set Warnings "-notation-overridden,-ambiguous-paths".
From mathcomp Require Import all_ssreflect all_algebra.
Set Implicit Arguments.
Unset Strict Implicit.
Unset Printing Implicit Defensive.

Import GRing.Theory.

Definition eqr (r1 r2 : R) : bool := if Req_EM_T r1 r2 is left _ then true else false.
Lemma eqrP : Equality.axiom eqr.
Proof. by move=> r1 r2; rewrite /eqr; case: Req_EM_T=> H; constructor. Qed.
Canonical R_eqMixin := EqMixin eqrP.
Canonical R_eqType := Eval hnf in EqType R R_eqMixin.

Fact inhR : inhabited R.
Proof. exact: (inhabits R0). Qed.
Definition pickR (P : pred R) (n : nat) : option R :=
  let x := epsilon inhR P in if P x then Some x else None.
Fact pickR_some P n x : pickR P n = Some x -> P x.
Proof. by rewrite /pickR; case: (boolP (P _)) => // Px [<-]. Qed.
Fact pickR_ex (P : pred R) : (exists x : R, P x) -> exists n, pickR P n.
Proof. by rewrite /pickR; move=> /(epsilon_spec inhR)->; exists 0%N. Qed.
Fact pickR_ext (P Q : pred R) : P =1 Q -> pickR P =1 pickR Q.
Proof.
move=> PEQ n; rewrite /pickR; set u := epsilon _ _; set v := epsilon _ _.
suff -> : u = v by rewrite PEQ.
have E : (fun x => is_true (P x)) = (fun x => is_true (Q x)).
  by apply: FunctionalExtensionality.functional_extensionality => x; rewrite PEQ.
by rewrite /u /v E.
Qed.
Definition R_choiceMixin : choiceMixin R := Choice.Mixin pickR_some pickR_ex pickR_ext.
Canonical R_choiceType := Eval hnf in ChoiceType R R_choiceMixin.

Fact RplusA : associative Rplus.
Proof. by move=> *; rewrite Rplus_assoc. Qed.
Definition R_zmodMixin := ZmodMixin RplusA Rplus_comm Rplus_0_l Rplus_opp_l.
Canonical R_zmodType := Eval hnf in ZmodType R R_zmodMixin.

Fact RmultA : associative Rmult.
Proof. by move=> *; rewrite Rmult_assoc. Qed.
Fact R1_neq_0 : R1 != R0.
Proof. by apply/eqP/R1_neq_R0. Qed.
Definition R_ringMixin := RingMixin RmultA Rmult_1_l Rmult_1_r Rmult_plus_distr_r Rmult_plus_distr_l R1_neq_0.
Canonical R_ringType := Eval hnf in RingType R R_ringMixin.
Canonical R_comRingType := Eval hnf in ComRingType R Rmult_comm.

Definition Rinvx (r : R) : R := if r != R0 then Rinv r else r.
Definition unit_R (r : R) := r != R0.
Lemma RmultRinvx : {in unit_R, left_inverse R1 Rinvx Rmult}.
Proof.
move=> r; rewrite -topredE /unit_R /Rinvx => /= rNZ.
by rewrite rNZ Rinv_l //; apply/eqP.
Qed.
Lemma RinvxRmult : {in unit_R, right_inverse R1 Rinvx Rmult}.
Proof.
move=> r; rewrite -topredE /unit_R /Rinvx => /= rNZ.
by rewrite rNZ Rinv_r //; apply/eqP.
Qed.
Lemma intro_unit_R (x y : R) : Rmult y x = R1 /\ Rmult x y = R1 -> unit_R x.
Proof.
move=> [yxE1 xyE1]; apply/eqP=> xZ.
by case/eqP: R1_neq_0; rewrite -yxE1 xZ Rmult_0_r.
Qed.
Lemma Rinvx_out : {in predC unit_R, Rinvx =1 id}.
Proof. by move=> x; rewrite inE /= /Rinvx -if_neg => ->. Qed.
Definition R_unitRingMixin := UnitRingMixin RmultRinvx RinvxRmult intro_unit_R Rinvx_out.
Canonical R_unitRing := Eval hnf in UnitRingType R R_unitRingMixin.
Canonical R_comUnitRingType := Eval hnf in [comUnitRingType of R].

Lemma R_idomainMixin (x y : R) : Rmult x y = R0 -> (x == R0) || (y == R0).
Proof. by move/Rmult_integral => [] ->; rewrite eqxx ?orbT. Qed.
Canonical R_idomainType := Eval hnf in IdomainType R R_idomainMixin.
Lemma R_field_mixin : GRing.Field.mixin_of [unitRingType of R].
Proof. by []. Qed.
Canonical R_fieldType := Eval hnf in FieldType R R_field_mixin.

(** Going back and forth between the two notations. *)
Lemma RplusE (x y : R) : Rplus x y = GRing.add x y. Proof. by []. Qed.
Lemma RoppE (x : R) : Ropp x = GRing.opp x. Proof. by []. Qed.
Lemma RminusE (x y : R) : Rminus x y = GRing.add x (GRing.opp y). Proof. by []. Qed.
Lemma RmultE (x y : R) : Rmult x y = GRing.mul x y. Proof. by []. Qed.
Lemma R0E : R0 = GRing.zero R_zmodType. Proof. by []. Qed.
Lemma R1E : R1 = GRing.one R_ringType. Proof. by []. Qed.
Lemma RinvE (x : R) : x <> R0 -> GRing.inv x = Rinv x.
Proof. by move=> /eqP Hx; rewrite /GRing.inv /= /Rinvx Hx. Qed.

Ltac hide_sums := repeat match goal with
  | |- context [@BigOp.bigop ?A ?I ?z ?r ?f] => let x := fresh "Sum" in set (x := @BigOp.bigop A I z r f) in *; clearbody x
  | H : context [@BigOp.bigop ?A ?I ?z ?r ?f] |- _ => let x := fresh "Sum" in set (x := @BigOp.bigop A I z r f) in *; clearbody x
  end.
Ltac toR := repeat match goal with
  | |- context [@GRing.add ?T ?a ?b] => change (@GRing.add T a b) with (Rplus a b)
  | |- context [@GRing.opp ?T ?a] => change (@GRing.opp T a) with (Ropp a)
  | |- context [@GRing.mul ?T ?a ?b] => change (@GRing.mul T a b) with (Rmult a b)
  | |- context [GRing.zero ?T] => change (GRing.zero T) with R0
  | |- context [GRing.one ?T] => change (GRing.one T) with R1
  end.
Ltac toR_in H := repeat match type of H with
  | context [@GRing.add ?T ?a ?b] => change (@GRing.add T a b) with (Rplus a b) in H
  | context [@GRing.opp ?T ?a] => change (@GRing.opp T a) with (Ropp a) in H
  | context [@GRing.mul ?T ?a ?b] => change (@GRing.mul T a b) with (Rmult a b) in H
  | context [GRing.zero ?T] => change (GRing.zero T) with R0 in H
  | context [GRing.one ?T] => change (GRing.one T) with R1 in H
  end.
Ltac eqR := match goal with |- @eq _ ?a ?b => change (@eq R a b) end.
Ltac Rring := toR; eqR; ring.
Ltac Rlra := toR; lra.
