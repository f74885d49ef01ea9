(** * Every real symmetric matrix has an orthonormal eigendecomposition with ascending eigenvalues. *)
From Coq Require Import Reals Lra List Lia Classical.
Set Warnings "-notation-overridden,-ambiguous-paths".
From mathcomp Require Import all_ssreflect all_algebra.
From Verif Require Import RStruct MatR Spec EwmaReal Simplex Compact CombExist.
Set Implicit Arguments.
Unset Strict Implicit.
Unset Printing Implicit Defensive.
Import GRing.Theory.
Local Open Scope ring_scope.
Delimit Scope R_scope with re.

Lemma scaleE m p (c : R) (M : 'M[R]_(m, p)) i j : (c *: M) i j = c * M i j.
Proof. by rewrite mxE. Qed.

Section Spectral.
  Context (n : nat) (A : 'M[R]_n).
  Hypothesis HA : sym A.

  Definition vec_of (w : nat -> R) : 'cV[R]_n := \col_i w i.
  Lemma vec_of_ex (x : 'cV[R]_n) : exists w, vec_of w = x.
  Proof.
    exists (fun i => if insub i is Some j then x j 0 else 0). apply/colP => i. rewrite mxE. by rewrite valK.
  Qed.
  (** Quadratic forms are continuous. *)
  Lemma qf_vec (M : 'M[R]_n) w : qf M (vec_of w) =
    rsum n (fun i => w i * rsum n (fun j => (if insub i is Some i then if insub j is Some j then M i j else 0 else 0) * w j))%re.
  Proof.
    rewrite rsumE /qf -mulmxA mxE. apply: eq_bigr => i _. rewrite !mxE rsumE. congr (_ * _). apply: eq_bigr => j _.
    by rewrite !mxE !valK.
  Qed.
  Lemma qf_cont (M : 'M[R]_n) w : cont n (fun w => qf M (vec_of w)) w.
  Proof.
    apply: cont_ext; first by move=> v; rewrite qf_vec.
    apply: cont_rsum => i Hi. apply: cont_mult; first exact: cont_coord. exact: cont_lin.
  Qed.
  Lemma lin_cont (y : 'cV[R]_n) w : cont n (fun w => (y^T *m vec_of w) 0 0) w.
  Proof.
    pose c (i : nat) : R := if insub i is Some i then y i 0 else 0.
    refine (cont_ext n (fun w => rsum n (fun i => (c i * w i)%re)) _ w _ _).
      move=> v. rewrite rsumE mxE /c. apply: eq_bigr => i _. by rewrite !mxE valK.
    exact: cont_lin.
  Qed.
  Lemma qf1 (x : 'cV[R]_n) : qf 1%:M x = nsq x.
  Proof. by rewrite /qf mulmx1. Qed.

  (** The largest value of x^T A x over unit vectors orthogonal to the columns of U. *)
  Lemma rayleigh k (U : 'M[R]_(n, k)) : (k < n)%N ->
    exists u, nsq u = 1 /\ U^T *m u = 0 /\ forall y, U^T *m y = 0 -> (qf A y <= qf A u * nsq y)%re.
  Proof.
    move=> Hk. pose P w := nsq (vec_of w) = 1 /\ U^T *m vec_of w = 0.
    have Hnz : exists y : 'cV[R]_n, y != 0 /\ U^T *m y = 0.
      have : kermx U != 0 by rewrite kermx_eq0 /row_free neq_ltn (leq_ltn_trans (rank_leq_col U) Hk).
      case/rowV0Pn => v /sub_kermxP Hv Hv0. exists v^T. split; first by apply: contra Hv0 => /eqP E; rewrite -[v]trmxK E trmx0.
      by rewrite -trmx_mul Hv trmx0.
    have Hunit : forall y : 'cV[R]_n, y != 0 -> U^T *m y = 0 -> exists c, (0 < c)%re /\ nsq (c *: y) = 1 /\ U^T *m (c *: y) = 0.
      move=> y Hy Hu. have Hp := nsq_gt0 Hy. have Hs := sqrt_lt_R0 _ Hp. exists (/ sqrt (nsq y))%re.
      split; first exact: Rinv_0_lt_compat. split; last by rewrite -scalemxAr Hu scaler0.
      rewrite -qf1 /qf trZ mulmx1 -scalemxAl -scalemxAr scalerA mxE -/(nsq y).
      have E := sqrt_sqrt (nsq y) (Rlt_le _ _ Hp). move: Hs E. move: (sqrt (nsq y)) => q Hs <-. toR. eqR. field. lra.
    case: (@compact_max n P (fun w => qf A (vec_of w)) (-1)%re 1%re).
    - case: Hnz => y [Hy Hu]. case: (Hunit y Hy Hu) => c [_ [H1 H2]]. case: (vec_of_ex (c *: y)) => w E.
      by exists w; rewrite /P E.
    - move=> w [H1 _] i /ltP Hi. have : (w i * w i <= 1)%re.
        rewrite -[X in (_ <= X)%re]H1 nsqE (bigD1 (Ordinal Hi)) //= !mxE.
        set S := BigOp.bigop _ _ _. have : (0 <= S)%re by apply: sumR_ge0 => j _; exact: Rle_0_sqr.
        move: S => S. toR. rewrite /=. lra.
      move=> H. split; nra.
    - move=> w. case: (classic (nsq (vec_of w) = 1)) => [H1|H1] HP.
      + have : exists j, (U^T *m vec_of w) j 0 <> 0.
          apply: NNPP => Hno. apply: HP. split=> //. apply/colP => j. rewrite [RHS]mxE. apply: NNPP => Hj. apply: Hno. by exists j.
        case=> j Hj. case: (@closed_eq n (fun w => ((col j U)^T *m vec_of w) 0 0) 0%re w (lin_cont _ w)).
          by rewrite tr_col -row_mul mxE.
        move=> d [Hd Hn]. exists d. split=> // w' Hw [_ H2]. apply: (Hn w' Hw). by rewrite tr_col -row_mul H2 !mxE.
      + case: (@closed_eq n (fun w => qf 1%:M (vec_of w)) 1%re w (qf_cont _ w)); first by rewrite qf1.
        move=> d [Hd Hn]. exists d. split=> // w' Hw [H2 _]. apply: (Hn w' Hw). by rewrite qf1.
    - move=> w _. exact: qf_cont.
    move=> w [[H1 H2] Hmax]. exists (vec_of w). split=> //. split=> // y Hy.
    case: (eqVneq y 0) => [->|Hy0]; first by rewrite /qf /nsq !mulmx0 mxE; toR; lra.
    case: (Hunit y Hy0 Hy) => c [Hc [E1 E2]]. case: (vec_of_ex (c *: y)) => w' E.
    have := Hmax w'. rewrite /P E => /(_ (conj E1 E2)).
    have -> : qf A (c *: y) = (c * c * qf A y)%re by rewrite /qf trZ -!scalemxAl -scalemxAr scalerA mxE.
    have Ec : (c * c * nsq y)%re = 1 by rewrite -E1 /nsq trZ -scalemxAl -scalemxAr scalerA [RHS]mxE.
    move=> H. have Hcc : (0 < c * c)%re by nra. apply: (Rmult_le_reg_l (c * c)) => //.
    apply: Rle_trans H _. right. transitivity (qf A (vec_of w) * (c * c * nsq y))%re; last by ring. rewrite Ec. toR. ring.
  Qed.

  (** It is attained at an eigenvector if U consists of eigenvectors. *)
  Lemma rayleigh_eig k (U : 'M[R]_(n, k)) (d : 'rV[R]_k) u : A *m U = U *m diag_mx d ->
    nsq u = 1 -> U^T *m u = 0 -> (forall y, U^T *m y = 0 -> (qf A y <= qf A u * nsq y)%re) -> A *m u = qf A u *: u.
  Proof.
    move=> HU Hu1 Hu0 Hmax. set l := qf A u. pose B := l *: 1%:M - A. pose b := B *m u.
    have HB : sym B by rewrite /sym trB trZ trmx1 HA.
    have Hb0 : U^T *m b = 0.
      rewrite /b /B mulmxBl mulmxBr -scalemxAl mul1mx -scalemxAr Hu0 scaler0 sub0r.
      rewrite mulmxA -[U^T *m A]trmxK trmx_mul trmxK HA HU trmx_mul tr_diag_mx -mulmxA Hu0 mulmx0 oppr0 //.
    have Hq : forall y, qf B y = l * nsq y - qf A y.
      move=> y. rewrite /qf /B mulmxBr mulmxBl subE -scalemxAr mulmx1 -scalemxAl mxE //.
    have Hpos : forall y, U^T *m y = 0 -> (0 <= qf B y)%re.
      move=> y Hy. rewrite Hq. have := Hmax y Hy. rewrite -/l. toR. lra.
    have HBu : qf B u = 0 by rewrite Hq Hu1 mulr1 subrr.
    have Hexp : forall t : R, qf B (u + t *: b) = 2%re * t * nsq b + t * t * qf B b.
      have E1 : (u^T *m B *m b) 0 0 = nsq b by rewrite /nsq /b trmx_mul HB.
      have E2 : (b^T *m B *m u) 0 0 = nsq b by rewrite /nsq -mulmxA.
      have E0 : (u^T *m B *m u) 0 0 = 0 by exact: HBu.
      clear Hb0 Hq Hpos HBu. clearbody b. move: HB E0 E1 E2. move: (B : 'M[R]_n) => B' HB E0 E1 E2.
      move=> t. rewrite /qf trD trZ !mulmxDl !mulmxDr -!scalemxAl -!scalemxAr !scalerA !addE !scaleE E0 E1 E2. move: ((b^T *m B' *m b) 0 0) (nsq b) => p q. Rring.
    have Hb : nsq b = 0.
      have Hb_ge := nsq_ge0 b.
      have H : forall t : R, (0 <= 2 * t * nsq b + t * t * qf B b)%re.
        move=> t. rewrite -[X in (_ <= X)%re]Hexp. apply: Hpos. by rewrite mulmxDr Hu0 -scalemxAr Hb0 scaler0 addr0.
      have Hqb := Hpos b Hb0. move: (nsq b) (qf B b) H Hb_ge Hqb => p q H Hp Hq'.
      case: (Rle_lt_or_eq_dec _ _ Hp) => // Hlt. exfalso.
      have := H (- p / (1 + q))%re. have Hq1 : (0 < 1 + q)%re by lra.
      have -> : (2 * (- p / (1 + q)) * p + - p / (1 + q) * (- p / (1 + q)) * q = - (p * p / (1 + q)) * ((2 + q) / (1 + q)))%re by field; lra.
      have : (0 < p * p / (1 + q))%re by apply: Rdiv_lt_0_compat => //; nra.
      have : (0 < (2 + q) / (1 + q))%re by apply: Rdiv_lt_0_compat => //; lra.
      nra.
    move: (nsq_eq0 Hb). rewrite /b /B mulmxBl -scalemxAl mul1mx => /eqP. by rewrite subr_eq0 => /eqP.
  Qed.

  Definition partial_eig k (U : 'M[R]_(n, k)) (d : 'rV[R]_k) : Prop :=
    U^T *m U = 1%:M /\ A *m U = U *m diag_mx d /\ (forall i j : 'I_k, (i <= j)%N -> (d ord0 i <= d ord0 j)%re) /\
    forall i y, U^T *m y = 0 -> (qf A y <= d ord0 i * nsq y)%re.
  Lemma partial_ex k : (k <= n)%N -> exists U d, @partial_eig k U d.
  Proof.
    elim: k => [|k IH] Hk.
      exists 0, 0. split; first by apply/matrixP => -[]. split; first by apply/matrixP => i [].
      split; by case.
    case: (IH (ltnW Hk)) => U [d [HU [HAU [Hd Hy]]]]. case: (@rayleigh k U Hk) => u [Hu1 [Hu0 Hmax]].
    have Hu := rayleigh_eig HAU Hu1 Hu0 Hmax. set l := qf A u in Hmax Hu.
    exists (row_mx u U : 'M[R]_(n, 1 + k)), (row_mx (l%:M : 'M[R]_1) d : 'rV[R]_(1 + k)).
    have Hul : forall i, (l <= d ord0 i)%re by move=> i; have := Hy i u Hu0; rewrite Hu1 -/l; toR; lra.
    change (@partial_eig (1 + k) (row_mx u U) (row_mx (l%:M : 'M[R]_1) d)).
    split; last split; last split.
    - rewrite tr_row_mx mul_col_row HU Hu0. have -> : u^T *m U = 0 by rewrite -[LHS]trmxK trmx_mul trmxK Hu0 trmx0.
      have -> : u^T *m u = 1%:M by apply/matrixP => i j; rewrite !ord1 -/(nsq u) Hu1 !mxE.
      exact/esym/scalar_mx_block.
    - rewrite mul_mx_row HAU Hu diag_mx_row mul_row_block !mulmx0 addr0 add0r. congr row_mx.
      have -> : diag_mx (l%:M : 'M[R]_1) = l%:M by apply/matrixP => i j; rewrite !ord1 !mxE.
      by rewrite mul_mx_scalar.
    - move=> i j. rewrite -[i]splitK -[j]splitK. case: (split i) => i'; case: (split j) => j' /=; rewrite ?row_mxEl ?row_mxEr.
      + by move=> _; rewrite !ord1; right.
      + by move=> _; rewrite !ord1 [_%:M _ _]mxE; exact: Hul.
      + rewrite !ord1 /=. by rewrite /bump.
      + by move=> H; apply: Hd; move: H; rewrite !leq_add2l.
    - move=> i y. rewrite tr_row_mx mul_col_mx => /eqP. rewrite col_mx_eq0 => /andP [/eqP H1 /eqP H2].
      rewrite -[i]splitK. case: (split i) => i' /=; rewrite ?row_mxEl ?row_mxEr; last exact: Hy.
      rewrite !ord1 [_%:M _ _]mxE. exact: Hmax.
  Qed.
  Theorem spectral : exists (U : 'M[R]_n) (d : 'rV[R]_n),
    U^T *m U = 1%:M /\ A *m U = U *m diag_mx d /\ forall i j : 'I_n, (i <= j)%N -> (d ord0 i <= d ord0 j)%re.
  Proof. case: (partial_ex (leqnn n)) => U [d [H1 [H2 [H3 _]]]]. by exists U, d. Qed.
End Spectral.
