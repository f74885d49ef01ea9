(** * The weighted ridge problem of ReturnCombinator. *)
From Coq Require Import Reals Lra ZArith String List Lia.
Set Warnings "-notation-overridden,-ambiguous-paths".
From mathcomp Require Import all_ssreflect all_algebra.
From Verif Require Import RStruct MatR Num Py ListFacts Spec Combination CombPerm Trader TraderMain BacktestProps RetComb SpecRet RetEwm.
Set Implicit Arguments.
Unset Strict Implicit.
Unset Printing Implicit Defensive.
Import GRing.Theory.
Local Open Scope ring_scope.
Delimit Scope R_scope with re.
Delimit Scope Z_scope with z.

Section Ridge.
  Context (K : nat).
  Notation vec := 'cV[R]_K.
  Notation obs := (R * vec * R)%type.
  Implicit Types (z : seq obs) (D w x : vec) (alpha : R).

  Definition Amx z alpha D : 'M[R]_K := \sum_(p <- z) p.1.1 *: (p.1.2 *m p.1.2^T) + alpha *: diag_mx D^T.
  Definition rhs z : vec := \sum_(p <- z) (p.1.1 * p.2) *: p.1.2.
  Definition list_loss z alpha D w : R :=
    \sum_(p <- z) p.1.1 * ((p.2 - forecast p.1.2 w) * (p.2 - forecast p.1.2 w)) + alpha * \sum_k D k 0 * (w k 0 * w k 0).

  Lemma scE m n c (A : 'M[R]_(m, n)) i j : (c *: A) i j = c * A i j.
  Proof. by rewrite mxE. Qed.
  Lemma forecastE x w : (x^T *m w) 0 0 = forecast x w.
  Proof. rewrite mxE. apply: eq_bigr => k _. by rewrite mxE. Qed.
  Lemma forecastC x w : (w^T *m x) 0 0 = forecast x w.
  Proof. rewrite mxE. apply: eq_bigr => k _. by rewrite mxE mulrC. Qed.
  Lemma qf_sum z (f : obs -> 'M[R]_K) w : qf (\sum_(p <- z) f p) w = \sum_(p <- z) qf (f p) w.
  Proof. elim: z => [|p z IH]; rewrite ?big_nil ?big_cons; first by rewrite /qf mulmx0 mul0mx mxE. by rewrite qfD IH. Qed.
  Lemma qf_outer x w : qf (x *m x^T) w = forecast x w * forecast x w.
  Proof.
    rewrite /qf mulmxA -[w^T *m x *m _ *m w]mulmxA [LHS]mxE big_ord1. by rewrite forecastC forecastE.
  Qed.
  Lemma qf_diag D w : qf (diag_mx D^T) w = \sum_k D k 0 * (w k 0 * w k 0).
  Proof. rewrite /qf mul_mx_diag mxE. apply: eq_bigr => k _. rewrite !mxE. move: (w k 0) (D k 0) => a b. Rring. Qed.
  Lemma lossE z alpha D w : list_loss z alpha D w = qf (Amx z alpha D) w - 2%re * forecast (rhs z) w + \sum_(p <- z) p.1.1 * (p.2 * p.2).
  Proof.
    rewrite /list_loss /Amx qfD qfZ qf_diag qf_sum.
    have -> : forecast (rhs z) w = \sum_(p <- z) p.1.1 * p.2 * forecast p.1.2 w.
      rewrite /rhs -forecastE. elim: z => [|p z IH]; rewrite ?big_nil ?big_cons; first by rewrite trmx0 mul0mx mxE.
      by rewrite trD mulmxDl addE IH trZ -scalemxAl scE forecastE.
    have E : \sum_(p <- z) p.1.1 * ((p.2 - forecast p.1.2 w) * (p.2 - forecast p.1.2 w)) =
             \sum_(p <- z) qf (p.1.1 *: (p.1.2 *m p.1.2^T)) w - 2%re * (\sum_(p <- z) p.1.1 * p.2 * forecast p.1.2 w) + \sum_(p <- z) p.1.1 * (p.2 * p.2).
      elim: z => [|p z IH]; rewrite ?big_nil ?big_cons; first by rewrite mulr0 subr0 addr0.
      rewrite IH qfZ qf_outer. hide_sums. move: (forecast _ w) => f. case: p => [[b x] y] /=. Rring.
    rewrite E. hide_sums. Rring.
  Qed.
  Lemma Amx_sym z alpha D : sym (Amx z alpha D).
  Proof.
    rewrite /sym /Amx trD trZ tr_diag_mx. congr (_ + _). elim: z => [|p z IH]; rewrite ?big_nil ?big_cons; first by rewrite trmx0.
    by rewrite trD IH trZ trmx_mul trmxK.
  Qed.
  Lemma Amx_qf z alpha D w : qf (Amx z alpha D) w = \sum_(p <- z) p.1.1 * (forecast p.1.2 w * forecast p.1.2 w) + alpha * \sum_k D k 0 * (w k 0 * w k 0).
  Proof. rewrite qfD qfZ qf_diag qf_sum. congr (_ + _). apply: eq_bigr => p _. by rewrite qfZ qf_outer. Qed.
  Lemma sum_ge0_seq (I : eqType) (l : seq I) (f : I -> R) : (forall i, i \in l -> (0 <= f i)%re) -> (0 <= \sum_(i <- l) f i)%re.
  Proof.
    elim: l => [|i l IH] H; rewrite ?big_nil ?big_cons; first exact: Rle_refl. apply: Rplus_le_le_0_compat; first by apply: H; rewrite inE eqxx.
    apply: IH => j Hj. apply: H. by rewrite inE Hj orbT.
  Qed.
  Definition pos_weights z := forall p, p \in z -> (0 < p.1.1)%re.
  Lemma Amx_psd z alpha D : pos_weights z -> (0 <= alpha)%re -> (forall k, (0 <= D k ord0)%re) -> psd (Amx z alpha D).
  Proof.
    move=> Hz Ha HD. split; first exact: Amx_sym. move=> w. rewrite Amx_qf. apply: Rplus_le_le_0_compat.
    - apply: sum_ge0_seq => p Hp. apply: Rmult_le_pos; last exact: Rle_0_sqr. apply: Rlt_le. exact: Hz.
    - apply: Rmult_le_pos => //. apply: sumR_ge0 => k _. apply: Rmult_le_pos; [exact: HD|exact: Rle_0_sqr].
  Qed.
  Lemma Amx_spd z alpha D : pos_weights z -> (0 < alpha)%re -> (forall k, (0 < D k ord0)%re) -> spd (Amx z alpha D).
  Proof.
    move=> Hz Ha HD. split; first exact: Amx_sym. move=> w Hw. rewrite Amx_qf. apply: Rplus_le_lt_0_compat.
    - apply: sum_ge0_seq => p Hp. apply: Rmult_le_pos; last exact: Rle_0_sqr. apply: Rlt_le. exact: Hz.
    - apply: Rmult_lt_0_compat => //. have [k Hk] : exists k, w k 0 != 0.
        apply/existsP. apply: contraR Hw => /existsPn H. apply/eqP/colP => k. rewrite !mxE. apply/eqP. have := H k. by rewrite negbK.
      apply: (@sumR_gt0 _ _ k) => [i|]; first by apply: Rmult_le_pos; [exact: Rlt_le|exact: Rle_0_sqr].
      apply: Rmult_lt_0_compat => //. apply: Rsqr_pos_lt. exact/eqP.
  Qed.
  (** A positive semidefinite matrix that is not singular is positive definite. *)
  Lemma psd_unit_spd (A : 'M[R]_K) : psd A -> A \in unitmx -> spd A.
  Proof.
    move=> [HA Hp] Hu. split=> // x Hx. have [//|H0] := Hp x. exfalso.
    have Ey : forall y : vec, ((y^T *m A *m x) 0 0 = 0 :> R).
    { move=> y. pose b := (y^T *m A *m x) 0 0. have Eb : (x^T *m A *m y) 0 0 = b.
        by rewrite /b -[y^T *m A *m x]trmxK [RHS]mxE !trmx_mul trmxK HA mulmxA.
      have Hs : forall s : R, (0 <= 2 * s * b + s * s * qf A y)%re.
      { move=> s. have := Hp (x + s *: y). rewrite /qf trD mulmxDl mulmxDr mulmxDl !addE trZ -!scalemxAl -!scalemxAr.
        rewrite mulmxDl -scalemxAl !scE addE scE Eb -/b. rewrite -/(qf A x) -/(qf A y) -H0. move: (qf A y) => q. toR. move=> H. lra. }
      have Hq := Hp y. rewrite -/b. move: b Hs {Eb} Hq => b. move: (qf A y) => q Hs Hq. case: (Req_EM_T b 0) => [//|Hb]. exfalso.
      have := Hs (- b / (q + 1))%re. move=> H. have Hq1 : (0 < q + 1)%re by lra.
      have E : (2 * (- b / (q + 1)) * b + (- b / (q + 1)) * (- b / (q + 1)) * q = - (b * b) * (q + 2) / ((q + 1) * (q + 1)))%re by field; lra.
      rewrite E in H. have : (0 < b * b * (q + 2) / ((q + 1) * (q + 1)))%re.
        apply: Rdiv_lt_0_compat; last exact: Rmult_lt_0_compat. apply: Rmult_lt_0_compat; last lra. exact: Rsqr_pos_lt.
      have E' : (- (b * b) * (q + 2) / ((q + 1) * (q + 1)) = - (b * b * (q + 2) / ((q + 1) * (q + 1))))%re by field; lra.
      rewrite E' in H.
      lra. }
    have E0 : A *m x = 0.
    { apply: nsq_eq0. rewrite /nsq. have := Ey (A *m x). by rewrite trmx_mul HA -!mulmxA. }
    move/eqP: Hx => []. exact: unit_inj Hu E0.
  Qed.
  Lemma loss_min z alpha D w : spd (Amx z alpha D) -> Amx z alpha D *m w = rhs z -> unique_minimiser (list_loss z alpha D) w.
  Proof.
    move=> HA Ew w' Hw. rewrite !lossE. have Hd : w' - w != 0 by rewrite subr_eq0; apply/eqP.
    have := proj2 HA _ Hd. set A := Amx z alpha D in HA Ew *. rewrite /qf trB !mulmxBl !mulmxBr !subE -/(qf A w') -/(qf A w).
    have E1 : (w'^T *m A *m w) 0 0 = forecast (rhs z) w' by rewrite -mulmxA Ew forecastC.
    have E2 : (w^T *m A *m w') 0 0 = forecast (rhs z) w'.
      by rewrite -forecastE -Ew trmx_mul (proj1 HA).
    have E3 : qf A w = forecast (rhs z) w by rewrite /qf -mulmxA Ew forecastC.
    rewrite E1 E2 E3. hide_sums. move: (qf A w') (forecast _ w') (forecast _ w) => a b c. toR. lra.
  Qed.
End Ridge.
