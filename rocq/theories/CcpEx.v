(** * ccp_regularize.py: outcomes, the proximal-gradient variant on an input it cannot handle, an ideal solver. *)
From Coq Require Import Reals Lra ZArith ClassicalDescription ClassicalEpsilon.
Set Warnings "-notation-overridden,-ambiguous-paths".
From mathcomp Require Import all_ssreflect all_algebra.
From Verif Require Import RStruct MatR Py Num Spectral Combination Regularization SpecReg RegProps RegOpt EmFacts EmProps Ccp SpecCcp CcpProps CcpOpt CcpMain.
Set Implicit Arguments.
Unset Strict Implicit.
Unset Printing Implicit Defensive.
Import GRing.Theory.
Local Open Scope ring_scope.
Delimit Scope R_scope with re.

(** A solver that returns a minimiser whenever there is one. *)
Definition ideal n k : csolver n k := fun f dom =>
  match excluded_middle_informative (exists x, minimiser f dom x) with
  | left H => CSolved (proj1_sig (constructive_indefinite_description _ H))
  | right _ => CNone n k
  end.
Lemma ideal_honest n k : honest (@ideal n k).
Proof.
  move=> f dom x. rewrite /ideal. case: excluded_middle_informative => //= H. case=> <-. exact: proj2_sig.
Qed.
Lemma ideal_solves n k f dom x : minimiser f dom x -> exists y, @ideal n k f dom = CSolved y.
Proof. move=> H. rewrite /ideal. case: excluded_middle_informative => [H'|[]]; [by eexists|by exists x]. Qed.

(** ** iterate2: e = 1, Sigma = 10. *)
Section Bad.
  Definition bS : 'M[R]_1 := const_mx 10%re.
  Definition be (x : R) : 'cV[R]_1 := const_mx x.
  Lemma bS_spd : spd bS.
  Proof.
    have -> : bS = factor_model (0 : 'M[R]_(1, 1)) (be 10%re).
      rewrite /factor_model mul0mx add0r. apply/matrixP => i j. by rewrite !mxE !ord1 eqxx mulr1n.
    apply: fm_spd => i. rewrite mxE. lra.
  Qed.
  Lemma be_inv x : x <> R0 -> inverse_of (be x) = Ok (be (rcp x)).
  Proof.
    move=> H. rewrite /inverse_of. case: ifP => [_|/negbT].
      congr Ok. apply/colP => i. by rewrite !mxE.
    rewrite negb_forall => /existsP [i]. rewrite negbK mxE => /eqP. by move/H.
  Qed.
  Lemma rt0 (v : 'cV[R]_1) : rows_times v (0 : 'M[R]_(1, 1)) = 0.
  Proof. apply/matrixP => i j. by rewrite !mxE mulr0. Qed.
  Lemma one_spd m : spd (1%:M : 'M[R]_m).
  Proof. split; first by rewrite /sym trmx1. move=> x Hx. rewrite /qf mulmx1. exact: nsq_gt0. Qed.
  Lemma prox0 x : x <> R0 -> prox_step bS 0 (be x, 0 : 'M[R]_(1, 1)) = Ok (be (x + rcp x - 10)%re, 0).
  Proof.
    move=> H. rewrite /prox_step /common_factor /grad_e /= be_inv //= rt0 mulmx0 subr0 (inv_ok (one_spd 1)) /= mul0mx rt0.
    congr (Ok (_, _)).
    - rewrite scale1r mul0mx. apply/colP => i. rewrite !mxE. move: (rcp x) => z. Rring.
    - by rewrite /grad_G mulmx0 !scaler0 subrr !scale1r subrr.
  Qed.
  Lemma prox0_loop m x : (x < 0)%re -> exists y, prox_loop m bS 0 (be x, 0 : 'M[R]_(1, 1)) = Ok (be y, 0) /\ (y < 0)%re.
  Proof.
    elim: m x => [|m IH] x Hx; first by exists x. simpl. rewrite prox0; last by apply: Rlt_not_eq. simpl. apply: IH.
    have := Rinv_lt_0_compat _ Hx. rewrite /rcp /Rdiv. lra.
  Qed.
  Lemma bad_iterate : exists s s' F' d', new_state bS (0 : 'M[R]_(1, 1)) (be 1%re) = Ok s /\ iterate2 s = (s', None) /\ build s' = Ok (F', d') /\ forall i, (d' i ord0 < 0)%re.
  Proof.
    have [L [E1 _]] := chol_ok (one_spd 1).
    exists (mkState (be 1%re) 0 bS false). have E0 : new_state bS (0 : 'M[R]_(1, 1)) (be 1%re) = Ok (mkState (be 1%re) 0 bS false).
      rewrite /new_state be_inv; last by lra. simpl. rewrite rt0 mulmx0 addr0 (inv_ok (one_spd 1)) /= invmx1 E1 /= mul0mx rt0. rewrite /rcp. by have -> : (1 / 1 = 1)%re by lra.
    have [y [E2 Hy]] : exists y, prox_loop 100 bS 0 (be 1%re, 0 : 'M[R]_(1, 1)) = Ok (be y, 0) /\ (y < 0)%re.
      have -> : prox_loop 100 bS 0 (be 1%re, 0 : 'M[R]_(1, 1)) = bind (prox_step bS 0 (be 1%re, 0)) (prox_loop 99 bS 0) by [].
      rewrite prox0; last by lra. apply: prox0_loop. rewrite /rcp. lra.
    exists (mkState (be y) 0 bS false), 0, (be (rcp y)). split=> //. split; [|split].
    - rewrite /iterate2 [s_e _]/= [s_G _]/= [s_Sigma _]/= E2. have [L' [E3 _]] := chol_ok bS_spd. rewrite /objective /= E3 /= big_det.
      case: Req_EM_T => //= E4. exfalso. move: E4. rewrite /precision mul0mx subr0 det_diag big_ord_recl big_ord0 !mxE mulr1 => E4. lra.
    - rewrite /build /= be_inv /=; last by lra. by rewrite rt0 mulmx0 subr0 (inv_ok (one_spd 1)) /= invmx1 E1 /= mul0mx rt0.
    - move=> i. rewrite mxE /rcp /Rdiv. have := Rinv_lt_0_compat _ Hy. lra.
  Qed.
End Bad.
