(** * Expectation-maximisation for factor models: matrix identities. *)
From Coq Require Import Reals Lra.
Set Warnings "-notation-overridden,-ambiguous-paths".
From mathcomp Require Import all_ssreflect all_algebra.
From Verif Require Import RStruct MatR Spectral Regularization SpecReg RegProps RegOpt.
Set Implicit Arguments.
Unset Strict Implicit.
Unset Printing Implicit Defensive.
Import GRing.Theory.
Local Open Scope ring_scope.
Delimit Scope R_scope with re.

(** ** Determinants *)
Lemma det_sylvester n k (A : 'M[R]_(n, k)) (B : 'M[R]_(k, n)) : \det (1%:M + A *m B) = \det (1%:M + B *m A).
Proof.
have E1 : block_mx 1%:M A (- B) 1%:M = block_mx 1%:M 0 (- B) 1%:M *m block_mx 1%:M A 0 (1%:M + B *m A).
  by rewrite mulmx_block !mul1mx !mul0mx ?mulmx0 ?mulmx1 !addr0 mulNmx addrCA addNr addr0.
have E2 : block_mx 1%:M A (- B) 1%:M = block_mx (1%:M + A *m B) A 0 1%:M *m block_mx 1%:M 0 (- B) 1%:M.
  by rewrite mulmx_block ?mul1mx ?mul0mx ?mulmx0 ?mulmx1 mulmxN ?addr0 ?add0r addrK.
have := E1. rewrite E2 => /(congr1 determinant). rewrite !det_mulmx !det_ublock !det_lblock !det1 !mul1r !mulr1. by [].
Qed.

Lemma ln_prod n (x : 'I_n -> R) : (forall i, (0 < x i)%re) -> ln (\prod_i x i) = \sum_i ln (x i) /\ (0 < \prod_i x i)%re.
Proof.
elim: n x => [|n IH] x Hx; first by rewrite !big_ord0 ln_1; split; [|exact: Rlt_0_1].
rewrite !big_ord_recl. have [E H] := IH (fun i => x (lift ord0 i)) (fun i => Hx _). split; last by apply: Rmult_lt_0_compat.
by rewrite ln_mult // E.
Qed.
Lemma ln_le_sub1 (x : R) : (0 < x)%re -> (ln x <= x - 1)%re.
Proof.
move=> H. have := exp_ineq1_le (ln x). rewrite exp_ln //. lra.
Qed.

Section Spd.
  Context (n : nat).
  Implicit Types (M A B : 'M[R]_n).
  Lemma spd_eig M U d i : is_eig M U d -> spd M -> (0 < d ord0 i)%re.
  Proof.
    move=> He [_ Hq]. rewrite -[X in (_ < X)%re](eig_val i He). apply: Hq. apply/eqP => E.
    case: He => HU _. have := HU. move/matrixP/(_ i i). rewrite [RHS]mxE eqxx mxE big1; first by move=> /eqP; rewrite eq_sym oner_eq0.
    move=> a _. have -> : U a i = 0 by move/colP/(_ a): E; rewrite !mxE. by rewrite mulr0.
  Qed.
  Lemma det_eig M U d : is_eig M U d -> \det M = \prod_i d 0 i.
  Proof.
    move=> [HU [HM _]]. have HU' := mulmx1C HU. have -> : M = U *m diag_mx d *m U^T by rewrite -HM -mulmxA HU' mulmx1.
    rewrite !det_mulmx det_diag mulrAC. have : \det U * \det U^T = 1 by rewrite -det_mulmx HU' det1.
    by move=> ->; rewrite mul1r.
  Qed.
  Lemma tr_eig M U d : is_eig M U d -> \tr M = \sum_i d 0 i.
  Proof.
    move=> [HU [HM _]]. have HU' := mulmx1C HU. have -> : M = U *m diag_mx d *m U^T by rewrite -HM -mulmxA HU' mulmx1.
    by rewrite mxtrace_mulC mulmxA HU mul1mx mxtrace_diag.
  Qed.
  Lemma spd_det M : spd M -> (0 < \det M)%re.
  Proof.
    move=> H. case: (spectral (proj1 H)) => U [d He]. rewrite (det_eig He). apply: (proj2 (ln_prod _)) => i. exact: spd_eig He H.
  Qed.
  Lemma sum1 : \sum_(i < n) (1 : R) = INR n.
  Proof. rewrite big_const card_ord. elim: n => [//|m IH]. by rewrite S_INR -IH /= addrC. Qed.
  (** log det M <= tr M - n *)
  Lemma logdet_tr M : spd M -> (ln (\det M) <= \tr M - INR n)%re.
  Proof.
    move=> H. case: (spectral (proj1 H)) => U [d He]. rewrite (det_eig He) (tr_eig He).
    have Hd : forall i, (0 < d ord0 i)%re by move=> i; exact: spd_eig He H.
    rewrite (proj1 (ln_prod Hd)) -sum1. change (Rle (\sum_i ln (d 0 i))%R (\sum_i d 0 i - \sum_(i < n) 1)%R). rewrite -sumrB. apply: sumR_le => i _. exact: ln_le_sub1.
  Qed.
  Lemma logdet_tr2 A B : spd A -> spd B -> (ln (\det A) + ln (\det B) <= \tr (A *m B) - INR n)%re.
  Proof.
    move=> HA HB. case E : (chol B) => [C|]; last by move/(chol_none (proj1 HB)): E.
    have HC := chol_is_chol (proj1 HB) E. have Hu := is_chol_unit HC. case: HC => _ [_ EB].
    have HS : spd (C^T *m A *m C).
      split; first by rewrite /sym !trmx_mul trmxK (proj1 HA) mulmxA.
      move=> x Hx. rewrite qf_congr. apply: (proj2 HA). apply/eqP => H0. case/eqP: Hx. exact: unit_inj Hu H0.
    have := logdet_tr HS. rewrite -EB. have -> : \tr (A *m (C *m C^T)) = \tr (C^T *m A *m C) by rewrite mulmxA mxtrace_mulC mulmxA.
    rewrite !det_mulmx. have Hd : (0 < \det A)%re by exact: spd_det. have := spd_det HB. rewrite -EB det_mulmx => Hdc.
    rewrite -ln_mult //. have -> : (\det A * (\det C * \det C^T)%R)%re = \det C^T * \det A * \det C by move: (\det A) (\det C) (\det C^T) => a b c; Rring.
    by [].
  Qed.
  Lemma tr_psd2 A B : psd A -> psd B -> (0 <= \tr (A *m B))%re.
  Proof.
    move=> HA HB. case: (spectral (proj1 HB)) => U [d He]. have [HU [HM _]] := He. have HU' := mulmx1C HU.
    have -> : B = U *m diag_mx d *m U^T by rewrite -HM -mulmxA HU' mulmx1.
    rewrite tr_sandwich. apply: sumR_ge0 => i _. apply: Rmult_le_pos; [exact: eig_psd He HB|]. by case: HA.
  Qed.
End Spd.
