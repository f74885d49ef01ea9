(** * Minimum-risk portfolios: the risk expression is the predicted volatility; optima exist and are unique. *)
From Coq Require Import Reals ZArith String List Lia Lra Classical.
Set Warnings "-notation-overridden,-ambiguous-paths".
From mathcomp Require Import all_ssreflect all_algebra.
From mathcomp.zify Require Import zify_ssreflect.
From Verif Require Import RStruct MatR Spec EwmaReal Simplex Compact CombExist Spectral Num Py Trader SpecTrader TraderLists CombOpt.
Set Implicit Arguments.
Unset Strict Implicit.
Unset Printing Implicit Defensive.
Import GRing.Theory.
Local Open Scope ring_scope.
Delimit Scope R_scope with re.

(** ** The whitener of trading_model.py. *)
Lemma L_inv_ok n (S : 'M[R]_n) : spd S -> exists L, get_L_inv S = Ok L /\ L^T *m L = S.
Proof.
  move=> HS. have Hu := spd_unit HS. have Hi := spd_inv HS. have [C HC] := chol_complete Hi.
  have Hch := chol_is_chol (proj1 Hi) HC. have HCu := is_chol_unit Hch.
  exists (invmx C). rewrite /get_L_inv /np_inv Hu /= HC /= HCu. split=> //.
  have [_ [_ HE]] := Hch. have -> : S = invmx (invmx S) by rewrite invmxK.
  rewrite -HE. have HCt : C^T \in unitmx by rewrite unitmx_tr.
  have E : invmx C^T *m invmx C *m (C *m C^T) = 1%:M by rewrite mulmxA -[invmx _ *m _ *m C]mulmxA mulVmx // mulmx1 mulVmx.
  rewrite trmx_inv. apply: (can_inj (mulmxK (_ : C *m C^T \in unitmx))); first by rewrite unitmx_mul HCu HCt.
  by rewrite E mulVmx // unitmx_mul HCu HCt.
Qed.
Lemma risk_vol n (S L : 'M[R]_n) w : L^T *m L = S -> risk L w = vol S w.
Proof. by move=> <-; rewrite /vol /risk qf_gram nsqE. Qed.
Lemma L_inv_spec n (S L : 'M[R]_n) w : spd S -> get_L_inv S = Ok L -> risk L w = vol S w.
Proof. move=> HS. have [L' [-> H]] := L_inv_ok HS. case=> <-. exact: risk_vol. Qed.

Lemma mapM_nth A B (f : A -> res B) l r : mapM f l = Ok r -> size r = size l /\
  forall i a0 b0, (i < size l)%N -> f (nth a0 l i) = Ok (nth b0 r i).
Proof.
  elim: l r => [|a l IH] r /=; first by case=> <-.
  case E: (f a) => [b|] //=. case E2: (mapM f l) => [bs|] //= [] <-. have [Hs Hn] := IH _ E2.
  split; first by rewrite /= Hs. by move=> [|i] a0 b0 //= Hi; exact: Hn.
Qed.

(** ** Volatility. *)
Section Vol.
  Context (n : nat) (S : 'M[R]_n).
  Hypothesis HS : spd S.
  Lemma qf_ge0 w : (0 <= qf S w)%re.
  Proof. by case: (spd_psd HS) => _; apply. Qed.
  Lemma vol_sq w : (vol S w * vol S w = qf S w)%re.
  Proof. apply: sqrt_sqrt. exact: qf_ge0. Qed.
  Lemma vol_ge0 w : (0 <= vol S w)%re.
  Proof. exact: sqrt_pos. Qed.
  Lemma vol_gt0 w : w != 0 -> (0 < vol S w)%re.
  Proof. move=> H. apply: sqrt_lt_R0. by apply: (proj2 HS). Qed.
  Lemma vol_le w w' : (vol S w <= vol S w')%re <-> (qf S w <= qf S w')%re.
  Proof.
    split=> H; last by apply: sqrt_le_1_alt.
    rewrite -!vol_sq. apply: Rmult_le_compat => //; exact: vol_ge0.
  Qed.
  Lemma volZ c w : vol S (c *: w) = (Rabs c * vol S w)%re.
  Proof.
    rewrite /vol. have -> : qf S (c *: w) = (Rsqr c * qf S w)%re by rewrite /qf trZ -!scalemxAl -scalemxAr scalerA mxE.
    rewrite sqrt_mult_alt; last exact: Rle_0_sqr. by rewrite sqrt_Rsqr_abs.
  Qed.
  (** The quadratic form bounds the coordinates. *)
  Lemma qf_coercive : exists c, (0 < c)%re /\ forall y, (c * nsq y <= qf S y)%re.
  Proof.
    case: (posnP n) => Hn.
    - exists 1%re. split; first lra. move=> y. have -> : nsq y = 0 by rewrite nsqE big1 // => -[i Hi]; exfalso; rewrite Hn in Hi.
      have := qf_ge0 y. toR. lra.
      have [u [Hu [_ Hmax]]] := @rayleigh n (- S) 0 0 Hn.
      have qN y : qf (- S) y = (- qf S y)%re by rewrite -scaleN1r qfZ; toR; eqR; ring.
      exists (qf S u). split.
      + apply: (proj2 HS). apply/eqP => E. move: Hu. rewrite E nsqE big1; last by move=> i _; rewrite mxE mul0r.
        toR. lra.
      + move=> y. have := Hmax y. rewrite trmx0 mul0mx => /(_ erefl). rewrite !qN. lra.
  Qed.
End Vol.

(** ** Closed sets. *)
Definition closed n (P : 'cV[R]_n -> Prop) : Prop := forall w, ~ P (vec_of n w) -> exists d, (0 < d)%re /\ forall w', near n d w w' -> ~ P (vec_of n w').
Lemma closed_and n (P Q : 'cV[R]_n -> Prop) : closed P -> closed Q -> closed (fun w => P w /\ Q w).
Proof.
  move=> HP HQ w Hn. case: (classic (P (vec_of n w))) => [H|H].
  - have [d [Hd Hw]] := HQ w (fun HQ => Hn (conj H HQ)). exists d. split=> // w' Hw' [_ H']. exact: (Hw w').
  - have [d [Hd Hw]] := HP w H. exists d. split=> // w' Hw' [H' _]. exact: (Hw w').
Qed.
Lemma closed_all n I (P : I -> 'cV[R]_n -> Prop) : (forall i, closed (P i)) -> closed (fun w => forall i, P i w).
Proof.
  move=> HP w Hn. have [i Hi] := not_all_ex_not _ _ Hn. have [d [Hd Hw]] := HP i w Hi. exists d. split=> // w' Hw' H. exact: (Hw w').
Qed.
Lemma closed_imp n (A : Prop) (P : 'cV[R]_n -> Prop) : (A -> closed P) -> closed (fun w => A -> P w).
Proof.
  move=> HP w Hn. have [HA H] := imply_to_and _ _ Hn. have [d [Hd Hw]] := HP HA w H. exists d. split=> // w' Hw' H'. exact: (Hw w' Hw' (H' HA)).
Qed.
Lemma closed_le n (g : 'cV[R]_n -> R) c : (forall w, cont n (fun w => g (vec_of n w)) w) -> closed (fun w => Rle (g w) c).
Proof.
  move=> Hg w /Rnot_le_lt H. have [d [Hd Hw]] := Hg w (g (vec_of n w) - c)%re ltac:(lra). exists d. split=> // w' Hw'.
  have := Hw w' Hw'. move/Rabs_def2. lra.
Qed.
Lemma closed_ge n (g : 'cV[R]_n -> R) c : (forall w, cont n (fun w => g (vec_of n w)) w) -> closed (fun w => Rle c (g w)).
Proof.
  move=> Hg w /Rnot_le_lt H. have [d [Hd Hw]] := Hg w (c - g (vec_of n w))%re ltac:(lra). exists d. split=> // w' Hw'.
  have := Hw w' Hw'. move/Rabs_def2. lra.
Qed.
Lemma closed_equ n (g : 'cV[R]_n -> R) c : (forall w, cont n (fun w => g (vec_of n w)) w) -> closed (fun w => g w = c).
Proof. move=> Hg w H. exact: (closed_eq n _ c w (Hg w) H). Qed.
Lemma cont_sum n m (F : 'I_m -> (nat -> R) -> R) w : (forall i, cont n (F i) w) -> cont n (fun v => (\sum_i F i v)%R) w.
Proof.
  move=> H. pose G (j : nat) v : R := if insub j is Some i then F i v else 0.
  refine (cont_ext n (fun v => rsum m (fun j => G j v)) _ w _ _).
  - move=> v. rewrite rsumE. apply: eq_bigr => i _. by rewrite /G valK.
  - apply: cont_rsum => j Hj. rewrite /G. case: insubP => [i _ _|_]; [exact: H|exact: cont_const].
Qed.
Lemma cont_entry n (i : 'I_n) w : cont n (fun v => vec_of n v i 0) w.
Proof. apply: (cont_ext n (fun v => v i)); first by move=> v; rewrite mxE. apply: cont_coord. apply/ltP. exact: ltn_ord. Qed.
Lemma cont_abs n f w : cont n f w -> cont n (fun v => Rabs (f v)) w.
Proof. move=> H. apply: (cont_comp n w f Rabs) => //. exact: Rcontinuity_abs. Qed.

Lemma closed_portfolio n l : closed (@portfolio n l).
Proof.
  apply: closed_and; [|apply: closed_and; [|apply: closed_and]].
  - apply: (@closed_equ n (fun w => \sum_i w i 0)) => w. apply: cont_sum => i. exact: cont_entry.
  - apply: closed_all => b. apply: closed_imp => _. apply: (@closed_le n (fun w => (\sum_i Rabs (w i 0))%R)) => w.
    apply: cont_sum => i. apply: cont_abs. exact: cont_entry.
  - apply: closed_all => b. apply: closed_imp => _. apply: closed_all => i. apply: (@closed_le n (fun w => w i 0)) => w. exact: cont_entry.
  - apply: closed_all => b. apply: closed_imp => _. apply: closed_all => i. apply: (@closed_ge n (fun w => w i 0)) => w. exact: cont_entry.
Qed.

Lemma min_exists_bd n (S : 'M[R]_n) (f : 'cV[R]_n -> R) (P : 'cV[R]_n -> Prop) B : spd S -> closed P -> (forall w, P (vec_of n w) -> cont n (fun w => f (vec_of n w)) w) ->
  (forall w, P w -> Rle (vol S w) B) -> (exists w, P w) -> exists w, minimiser f P w.
Proof.
  move=> HS HP Hf Hvf [w0 H0]. have [c [Hc Hco]] := qf_coercive HS.
  pose b := (1 + B * B / c)%re.
  case: (@compact_max n (fun w => P (vec_of n w)) (fun w => (- f (vec_of n w))%re) (- b)%re b).
  - have [w Hw] := vec_of_ex w0. exists w. by rewrite Hw.
  - move=> w HPw i /ltP Hi. have Hb : (w i * w i <= B * B / c)%re.
      have Hle : (w i * w i <= nsq (vec_of n w))%re.
        rewrite nsqE (bigD1 (Ordinal Hi)) //= !mxE. set X := BigOp.bigop _ _ _. have : (0 <= X)%re by apply: sumR_ge0 => j _; exact: Rle_0_sqr.
        move: X => X. toR. rewrite /=. lra.
      apply: Rle_trans Hle _. have H := Hco (vec_of n w). apply: (Rmult_le_reg_l c) => //.
      have -> : (c * (B * B / c) = B * B)%re by field; lra. apply: Rle_trans H _. rewrite -(vol_sq HS).
      have H1 := Hvf _ HPw. have H2 := vol_ge0 S (vec_of n w). nra.
    have Hx : (0 <= B * B / c)%re by apply: Rle_trans Hb; exact: Rle_0_sqr.
    rewrite /b. split; nra.
  - exact: HP.
  - move=> w Hw. apply: (cont_ext n (fun w => (-1 * f (vec_of n w))%re)); first by move=> v; ring. apply: cont_scal. exact: Hf.
  - move=> w [HPw Hmax]. exists (vec_of n w). split=> // y Hy.
    have [v Ev] := vec_of_ex y. have := Hmax v. rewrite Ev => /(_ Hy). lra.
Qed.
Lemma min_exists_gen n (S : 'M[R]_n) (f : 'cV[R]_n -> R) (P : 'cV[R]_n -> Prop) : spd S -> closed P -> (forall w, cont n (fun w => f (vec_of n w)) w) ->
  (forall w, P w -> Rle (vol S w) (f w)) -> (exists w, P w) -> exists w, minimiser f P w.
Proof.
  move=> HS HP Hf Hvf [w0 H0].
  have [|||w [[H1 H2] Hm]] := @min_exists_bd n S f (fun w => P w /\ Rle (f w) (f w0)) (f w0) HS _ (fun w _ => Hf w).
  - by apply: closed_and => //; exact: (@closed_le n f).
  - move=> w [Hw1 Hw2]. apply: Rle_trans Hw2. exact: Hvf.
  - exists w0. split=> //. exact: Rle_refl.
  - exists w. split=> // y Hy. case: (Rle_dec (f y) (f w0)) => H; first by apply: Hm.
    apply: Rle_trans H2 _. apply: Rlt_le. exact: Rnot_le_lt.
Qed.
Lemma cont_vol n (S : 'M[R]_n) w : spd S -> cont n (fun w => vol S (vec_of n w)) w.
Proof. move=> HS. apply: (cont_comp n w (fun w => qf S (vec_of n w)) sqrt); first exact: qf_cont. apply: continuity_pt_sqrt. exact: qf_ge0. Qed.
Lemma min_exists n (S : 'M[R]_n) (P : 'cV[R]_n -> Prop) : spd S -> closed P -> (exists w, P w) -> exists w, minimiser (vol S) P w.
Proof. move=> HS HP. apply: (min_exists_gen HS) => // [w|w _]; [exact: cont_vol|exact: Rle_refl]. Qed.
Lemma robust_exists n (S : 'M[R]_n) (P : 'cV[R]_n -> Prop) k s : spd S -> closed P -> Rle 0 k -> (exists w, P w) -> exists w, minimiser (robust_risk S k s) P w.
Proof.
  move=> HS HP Hk. apply: (min_exists_gen HS) => // [w|w _].
  - rewrite /robust_risk. apply: cont_plus; first exact: cont_vol. apply: cont_scal. apply: cont_sq. apply: cont_sum => i.
    apply: cont_scal. apply: cont_abs. exact: cont_entry.
  - rewrite /robust_risk. have := Rmult_le_pos _ _ Hk (Rle_0_sqr (\sum_i s i 0 * Rabs (w i 0))%R). rewrite /Rsqr. lra.
Qed.

Lemma closed_within n l : closed (@within n l).
Proof.
  apply: closed_and; [|apply: closed_and].
  - apply: closed_all => b. apply: closed_imp => _. apply: (@closed_le n (fun w => (\sum_i Rabs (w i 0))%R)) => w.
    apply: cont_sum => i. apply: cont_abs. exact: cont_entry.
  - apply: closed_all => b. apply: closed_imp => _. apply: closed_all => i. apply: (@closed_le n (fun w => w i 0)) => w. exact: cont_entry.
  - apply: closed_all => b. apply: closed_imp => _. apply: closed_all => i. apply: (@closed_ge n (fun w => w i 0)) => w. exact: cont_entry.
Qed.
Lemma sqrt252 : (0 < sqrt 252)%re.
Proof. apply: sqrt_lt_R0. lra. Qed.
Lemma mv_exists n (S : 'M[R]_n) l b r rho : spd S -> (exists u, mv_portfolio l S b u) ->
  exists u, minimiser (fun u => (- mv_value r rho u)%re) (mv_portfolio l S b) u.
Proof.
  move=> HS [u0 [_ H0]]. have H252 := sqrt252.
  have [||||w [[H1 H2] Hm]] := @min_exists_bd n S (fun w => (- mv_value r rho (w, 0%R))%re) (fun w => Rle (sqrt 252 * vol S w) b /\ within l w) (b / sqrt 252)%re HS.
  - apply: closed_and; last exact: closed_within. apply: (@closed_le n (fun w => (sqrt 252 * vol S w)%re)) => w. apply: cont_scal. exact: cont_vol.
  - move=> w _. rewrite /mv_value. apply: (cont_ext n (fun w => ((-1) * (\sum_i r i 0 * vec_of n w i 0)%R + (\sum_i rho i 0 * Rabs (vec_of n w i 0))%R)%re)).
      move=> v /=. move: (\sum_i _)%R (\sum_i _)%R => p q. toR. ring.
    apply: cont_plus; last by apply: cont_sum => i; apply: cont_scal; apply: cont_abs; exact: cont_entry.
    apply: cont_scal. apply: cont_sum => i. apply: cont_scal. exact: cont_entry.
  - move=> w [Hw _]. apply: (Rmult_le_reg_l (sqrt 252)) => //. have -> : (sqrt 252 * (b / sqrt 252) = b)%re by field; lra. exact: Hw.
  - by exists u0.1.
  - exists (w, (1 - (\sum_i w i 0)%R)%re). split.
    + split=> //=. move: (\sum_i _)%R => p. toR. eqR. ring.
    + move=> [y c] [_ [Hy1 Hy2]]. exact: (Hm y (conj Hy1 Hy2)).
Qed.

(** ** Uniqueness. *)
Definition mid_closed n (P : 'cV[R]_n -> Prop) : Prop := forall x y, P x -> P y -> P ((/ 2)%re *: (x + y)).
Lemma portfolio_mid n l : mid_closed (@portfolio n l).
Proof.
  move=> x y [Hx [Hx1 [Hx2 Hx3]]] [Hy [Hy1 [Hy2 Hy3]]].
  have E i : ((/ 2)%re *: (x + y)) i 0 = (/ 2 * (x i 0%R + y i 0%R))%re by rewrite scaleE addE.
  split; last split; last split.
  - under eq_bigr do rewrite E. rewrite -big_distrr big_split /= Hx Hy. toR. eqR. field.
  - move=> b Hb. have H1 := Hx1 _ Hb. have H2 := Hy1 _ Hb.
    have : Rle (\sum_i Rabs (((/ 2)%re *: (x + y))%R i 0))%R (\sum_i (/ 2)%re * (Rabs (x i 0) + Rabs (y i 0)))%R.
      apply: sumR_le => i _. rewrite E Rabs_mult Rabs_pos_eq; last lra. apply: Rmult_le_compat_l; first lra. exact: Rabs_triang.
    rewrite -big_distrr big_split /= => H. apply: Rle_trans H _. move: H1 H2. move: (\sum_i Rabs (x i 0))%R (\sum_i Rabs (y i 0))%R => a c. toR. move=> *. lra.
  - move=> b Hb i. rewrite E. have := Hx2 _ Hb i. have := Hy2 _ Hb i. lra.
  - move=> b Hb i. rewrite E. have := Hx3 _ Hb i. have := Hy3 _ Hb i. lra.
Qed.
Lemma qf_half n (P : 'M[R]_n) (x y : 'cV[R]_n) : sym P ->
  qf P ((/ 2)%re *: (x + y)) = ((/ 2) * (qf P x + qf P y) - (/ 4) * qf P (x - y))%re.
Proof.
  move=> Hs.
  have qfZ' : forall c z, qf P (c *: z) = (c * c * qf P z)%re.
    by move=> c z; rewrite /qf trZ -!scalemxAl -scalemxAr scalerA mxE.
  pose q := (x^T *m P *m y) 0 0.
  have Hxy : (y^T *m P *m x) 0 0 = q.
    by rewrite -[in LHS]Hs -[x in LHS]trmxK -mulmxA -trmx_mul -trmx_mul mxE.
  rewrite qfZ'. have -> : qf P (x + y) = (qf P x + q + (q + qf P y))%re.
    by rewrite /qf trD !mulmxDl !mulmxDr !addE Hxy -/q [X in _ + X]addrC [X in _ + X]addrC.
  have -> : qf P (x - y) = (qf P x - q - (q - qf P y))%re.
    by rewrite /qf trB !mulmxBl !mulmxBr !subE Hxy -/q.
  move: (qf P x) (qf P y) => a b. move: (q : R) => c. eqR. field.
Qed.
Lemma min_unique n (S : 'M[R]_n) P w w' : spd S -> mid_closed P -> minimiser (vol S) P w -> minimiser (vol S) P w' -> w = w'.
Proof.
  move=> HS HP [H1 M1] [H2 M2]. apply: NNPP => Hne.
  have Hd : w - w' != 0 by rewrite subr_eq0; apply/eqP.
  have Hpos := proj2 HS _ Hd. have Hm := HP _ _ H1 H2.
  have /(vol_le HS) L1 := M1 _ Hm. have /(vol_le HS) L2 := M2 _ Hm. rewrite (qf_half _ _ (proj1 HS)) in L1 L2. lra.
Qed.
