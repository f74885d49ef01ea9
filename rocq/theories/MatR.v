(** * Real matrices: positive definiteness, Cholesky factorisation. *)
From Coq Require Import Reals Lra.
Set Warnings "-notation-overridden,-ambiguous-paths".
From mathcomp Require Import all_ssreflect all_algebra.
From Verif Require Import RStruct.
Set Implicit Arguments.
Unset Strict Implicit.
Unset Printing Implicit Defensive.
Import GRing.Theory.
Local Open Scope ring_scope.
Delimit Scope R_scope with re.

(** Symmetric, positive (semi)definite. *)
Definition qf n (M : 'M[R]_n) (x : 'cV[R]_n) : R := (x^T *m M *m x) 0 0.
Definition sym n (M : 'M[R]_n) : Prop := M^T = M.
Definition spd n (M : 'M[R]_n) : Prop := sym M /\ forall x, x != 0 -> (0 < qf M x)%re.
Definition psd n (M : 'M[R]_n) : Prop := sym M /\ forall x, (0 <= qf M x)%re.
Definition nsq n (x : 'cV[R]_n) : R := (x^T *m x) 0 0.

(** The lower Cholesky factor: lower triangular, positive diagonal, L L^T = M. *)
Definition is_chol n (M L : 'M[R]_n) : Prop :=
  is_trig_mx L /\ (forall i, (0 < L i i)%re) /\ L *m L^T = M.

(** ** Sums *)
Lemma sumR_ge0 (I : finType) (P : pred I) (F : I -> R) : (forall i, P i -> (0 <= F i)%re) -> (0 <= \sum_(i | P i) F i)%re.
Proof.
move=> H; elim/big_ind: _ => //; first exact: Rle_refl.
by move=> x y Hx Hy; toR; lra.
Qed.
Lemma sumR_gt0 (I : finType) (F : I -> R) (j : I) : (forall i, (0 <= F i)%re) -> (0 < F j)%re -> (0 < \sum_i F i)%re.
Proof.
move=> H Hj; rewrite (bigD1 j) //=.
apply: Rplus_lt_le_0_compat => //. by apply: sumR_ge0.
Qed.
Lemma sumR_eq0 (I : finType) (F : I -> R) : (forall i, (0 <= F i)%re) -> \sum_i F i = 0 -> forall i, F i = 0.
Proof.
move=> H E j. apply: Rle_antisym; last exact: H.
apply: Rnot_lt_le => Hj. have := sumR_gt0 H Hj. rewrite E; toR => ?; lra.
Qed.
Lemma sumR_le (I : finType) (P : pred I) (F G : I -> R) : (forall i, P i -> (F i <= G i)%re) -> (\sum_(i | P i) F i <= \sum_(i | P i) G i)%re.
Proof.
move=> H; elim/big_ind2: _ => //; first exact: Rle_refl.
by move=> x1 x2 y1 y2 H1 H2; toR; lra.
Qed.

Lemma nsqE n (x : 'cV[R]_n) : nsq x = \sum_i (x i 0) * (x i 0).
Proof. by rewrite /nsq mxE; apply: eq_bigr => i _; rewrite mxE. Qed.
Lemma nsq_ge0 n (x : 'cV[R]_n) : (0 <= nsq x)%re.
Proof. rewrite nsqE; apply: sumR_ge0 => i _. exact: Rle_0_sqr. Qed.
Lemma nsq_eq0 n (x : 'cV[R]_n) : nsq x = 0 -> x = 0.
Proof.
rewrite nsqE => E. apply/colP => i; rewrite mxE.
have := sumR_eq0 (fun i => Rle_0_sqr (x i 0)) E i. exact: Rsqr_0_uniq.
Qed.
Lemma nsq_gt0 n (x : 'cV[R]_n) : x != 0 -> (0 < nsq x)%re.
Proof.
move=> Hx; case: (Rle_lt_or_eq_dec _ _ (nsq_ge0 x)) => // E.
by move/eqP: Hx; case; apply: nsq_eq0.
Qed.

Lemma trZ m n c (A : 'M[R]_(m, n)) : (c *: A)^T = c *: A^T.
Proof. by apply/matrixP => i j; rewrite !mxE. Qed.
Lemma trD m n (A B : 'M[R]_(m, n)) : (A + B)^T = A^T + B^T.
Proof. by apply/matrixP => i j; rewrite !mxE. Qed.
Lemma trB m n (A B : 'M[R]_(m, n)) : (A - B)^T = A^T - B^T.
Proof. by apply/matrixP => i j; rewrite !mxE. Qed.
Lemma addE m n (A B : 'M[R]_(m, n)) i j : (A + B) i j = A i j + B i j.
Proof. by rewrite mxE. Qed.
Lemma subE m n (A B : 'M[R]_(m, n)) i j : (A - B) i j = A i j - B i j.
Proof. by rewrite !mxE. Qed.
Lemma qf_gram m n (B : 'M[R]_(m, n)) x : qf (B^T *m B) x = nsq (B *m x).
Proof. by rewrite /qf /nsq trmx_mul !mulmxA. Qed.
Lemma qfD n (A B : 'M[R]_n) x : qf (A + B) x = qf A x + qf B x.
Proof. by rewrite /qf mulmxDr mulmxDl mxE. Qed.
Lemma qfZ n c (A : 'M[R]_n) x : qf (c *: A) x = c * qf A x.
Proof. by rewrite /qf -scalemxAr -scalemxAl mxE. Qed.
Lemma qf_congr m n (B : 'M[R]_(m, n)) (A : 'M[R]_m) x : qf (B^T *m A *m B) x = qf A (B *m x).
Proof. by rewrite /qf trmx_mul !mulmxA. Qed.

Lemma spd_psd n (M : 'M[R]_n) : spd M -> psd M.
Proof.
case=> Hs Hp; split=> // x. case: (eqVneq x 0) => [->|Hx]; last exact/Rlt_le/Hp.
rewrite /qf mulmx0 mxE. exact: Rle_refl.
Qed.
Lemma psd_gram m n (B : 'M[R]_(m, n)) : psd (B^T *m B).
Proof.
split; first by rewrite /sym trmx_mul trmxK.
by move=> x; rewrite qf_gram; apply: nsq_ge0.
Qed.
Lemma spd_gram m n (B : 'M[R]_(m, n)) : (forall x : 'cV[R]_n, B *m x = 0 -> x = 0) -> spd (B^T *m B).
Proof.
move=> H; split; first by rewrite /sym trmx_mul trmxK.
move=> x Hx; rewrite qf_gram. apply: nsq_gt0. by apply: contra_neq Hx; exact: H.
Qed.
Lemma unit_inj n (L : 'M[R]_n) m (x : 'M[R]_(n, m)) : L \in unitmx -> L *m x = 0 -> x = 0.
Proof. by move=> Hu E; rewrite -(mul1mx x) -(mulVmx Hu) -mulmxA E mulmx0. Qed.
Lemma spd_LLT n (L : 'M[R]_n) : L \in unitmx -> spd (L *m L^T).
Proof.
move=> Hu. have := @spd_gram n n (L^T). rewrite trmxK; apply => x.
by apply: unit_inj; rewrite unitmx_tr.
Qed.

Lemma spd_unit n (M : 'M[R]_n) : spd M -> M \in unitmx.
Proof.
case=> Hs Hp. rewrite unitmxE unitfE. apply/negP => /det0P [v Hv E].
have Hx : v^T != 0 by apply: contra_neq Hv => /(congr1 trmx); rewrite trmxK trmx0.
have := Hp _ Hx. rewrite /qf trmxK E mul0mx mxE; toR => ?; lra.
Qed.
Lemma sym_inv n (M : 'M[R]_n) : sym M -> sym (invmx M).
Proof. by rewrite /sym => E; rewrite trmx_inv E. Qed.
Lemma qf_inv n (M : 'M[R]_n) x : sym M -> M \in unitmx -> qf (invmx M) x = qf M (invmx M *m x).
Proof.
move=> Hs Hu. rewrite -qf_congr. congr (qf _ x). by rewrite (sym_inv Hs) mulVmx // mul1mx.
Qed.
Lemma spd_inv n (M : 'M[R]_n) : spd M -> spd (invmx M).
Proof.
move=> H; have Hu := spd_unit H. case: H => Hs Hp. split; first exact: sym_inv.
move=> x Hx. rewrite qf_inv //. apply: Hp. apply: contra_neq Hx => E.
by rewrite -(mul1mx x) -(mulmxV Hu) -mulmxA E mulmx0.
Qed.
Lemma spd_inv_iff n (M : 'M[R]_n) : M \in unitmx -> spd (invmx M) -> spd M.
Proof. by move=> Hu H; rewrite -(invmxK M); apply: spd_inv. Qed.

(** ** Triangular matrices *)
Lemma trig_det_gt0 n (L : 'M[R]_n) : is_trig_mx L -> (forall i, (0 < L i i)%re) -> (0 < \det L)%re.
Proof.
move=> Ht Hd. rewrite det_trig //. elim/big_ind: _ => //; first exact: Rlt_0_1.
move=> x y; exact: Rmult_lt_0_compat.
Qed.
Lemma trig_unit n (L : 'M[R]_n) : is_trig_mx L -> (forall i, (0 < L i i)%re) -> L \in unitmx.
Proof.
move=> Ht Hd. rewrite unitmxE unitfE. apply/eqP => E. have := trig_det_gt0 Ht Hd. rewrite E; toR => ?; lra.
Qed.
Lemma is_chol_unit n (M L : 'M[R]_n) : is_chol M L -> L \in unitmx.
Proof. by case=> Ht [Hd _]; apply: trig_unit. Qed.
Lemma is_chol_spd n (M L : 'M[R]_n) : is_chol M L -> spd M.
Proof. move=> H; have Hu := is_chol_unit H. case: H => _ [_ <-]. exact: spd_LLT. Qed.

(** ** Cholesky's algorithm.  It reads the lower triangle of its argument only and stops at the first
    pivot that is not positive (LAPACK potrf, numpy.linalg.cholesky). *)
Definition chol_step m (rec : 'M[R]_m -> option 'M[R]_m) (A : 'M[R]_(1 + m)) : option 'M[R]_(1 + m) :=
  let a := A (lshift m 0) (lshift m 0) in
  if Rlt_dec 0 a then
    let s := sqrt a in
    let v : 'cV[R]_m := (Rinv s) *: dlsubmx A in
    match rec (drsubmx A - v *m v^T) with
    | Some L => Some (block_mx (s%:M : 'M_1) 0 v L)
    | None => None
    end
  else None.
Fixpoint chol (n : nat) : 'M[R]_n -> option 'M[R]_n :=
  match n with
  | O => fun _ => Some 0
  | S m => chol_step (@chol m)
  end.

Lemma trig_block m (s : R) (v : 'cV[R]_m) (L : 'M[R]_m) :
  is_trig_mx L -> is_trig_mx (block_mx (s%:M : 'M_1) 0 v L).
Proof.
move=> /is_trig_mxP Ht. apply/is_trig_mxP => i j.
case: (split_ordP i) => i' ->; case: (split_ordP j) => j' -> /=; rewrite ?(block_mxEul, block_mxEur, block_mxEdl, block_mxEdr).
- by rewrite !ord1.
- by rewrite mxE.
- by rewrite ord1 /= ltn0.
- by rewrite ltn_add2l; exact: Ht.
Qed.
Lemma sqrt_inv_id a : (0 < a)%re -> (sqrt a * / sqrt a = 1)%re.
Proof. move=> H; apply: Rinv_r. apply: Rgt_not_eq. exact: sqrt_lt_R0. Qed.

Lemma scal1_col m (s : R) (v : 'cV[R]_m) : v *m (s%:M : 'M_1) = s *: v.
Proof. by rewrite mul_mx_scalar. Qed.

Definition chol_ok n (f : 'M[R]_n -> option 'M[R]_n) : Prop := forall A L, f A = Some L ->
  is_trig_mx L /\ (forall i, (0 < L i i)%re) /\ (sym A -> L *m L^T = A).

Lemma chol_step_ok m (rec : 'M[R]_m -> option 'M[R]_m) : chol_ok rec -> chol_ok (chol_step rec).
Proof.
move=> IH A L; rewrite /chol_step /=.
case: Rlt_dec => // Ha. set s := sqrt _. set v := (_ *: _ : 'cV_m).
case E: (rec _) => [L'|] // [<-].
have [Ht [Hd Hm]] := IH _ _ E. have Hs : (0 < s)%re by exact: sqrt_lt_R0.
split; first exact: trig_block.
split.
  move=> i. case: (split_ordP i) => i' ->; rewrite ?(block_mxEul, block_mxEdr) //.
  by rewrite mxE eqxx mulr1n.
move=> Hsym.
have Hur : ursubmx A = (dlsubmx A)^T by rewrite trmx_dlsub Hsym.
have Hdr : sym (drsubmx A) by rewrite /sym trmx_drsub Hsym.
rewrite tr_block_mx mulmx_block !trmx0 !mulmx0 !mul0mx !addr0 tr_scalar_mx.
have Hv : s *: v = dlsubmx A.
  rewrite scalerA; have -> : s * (/ s)%re = 1 by exact: sqrt_inv_id. by rewrite scale1r.
rewrite Hm; last first.
  by rewrite /sym linearB /= trmx_mul trmxK Hdr.
have -> : v *m (s%:M : 'M_1) = dlsubmx A by rewrite -Hv scal1_col.
have -> : (s%:M : 'M_1) *m v^T = ursubmx A by rewrite Hur -Hv mul_scalar_mx; apply/matrixP => i j; rewrite !mxE.
rewrite addrC subrK.
have -> : (s%:M : 'M_1) *m s%:M = ulsubmx A.
  rewrite -scalar_mxM. apply/matrixP => i j. rewrite !ord1 !mxE eqxx mulr1n.
  by rewrite /s; toR; rewrite sqrt_sqrt; [congr (A _ _); apply: val_inj | lra].
by rewrite submxK.
Qed.

Lemma chol_sound n : chol_ok (@chol n).
Proof.
elim: n => [|m IH] /=; last exact: chol_step_ok.
move=> A L _; split; first by apply/is_trig_mxP => -[].
by split=> [[]|_]; rewrite ?(flatmx0 A) ?(flatmx0 (_ *m _)).
Qed.

Lemma chol_is_chol n (A L : 'M[R]_n) : sym A -> chol A = Some L -> is_chol A L.
Proof. by move=> Hs H; case: (chol_sound H) => H1 [H2 H3]; split=> //; split=> //; apply: H3. Qed.

Lemma qf_block m (a : 'M[R]_1) (b : 'M[R]_(1, m)) (c : 'M[R]_(m, 1)) (d : 'M[R]_m) (x : 'cV[R]_1) (y : 'cV[R]_m) :
  qf (block_mx a b c d : 'M_(1 + m)) (col_mx x y) =
  (x^T *m a *m x) 0 0 + (y^T *m c *m x) 0 0 + ((x^T *m b *m y) 0 0 + qf d y).
Proof. by rewrite /qf tr_col_mx mul_row_block mul_row_col !mulmxDl !mxE. Qed.

Definition chol_total n (f : 'M[R]_n -> option 'M[R]_n) : Prop := forall A, spd A -> exists L, f A = Some L.
Lemma chol_step_total m (rec : 'M[R]_m -> option 'M[R]_m) : chol_total rec -> chol_total (chol_step rec).
Proof.
move=> IH A H. have [Hs Hp] := H. rewrite /chol_step /=.
have E : A = block_mx (ulsubmx A) (ursubmx A) (dlsubmx A) (drsubmx A) by rewrite submxK.
case: Rlt_dec => [Ha|Hn]; last first.
  case: Hn. have := Hp (col_mx (1%:M : 'M_1) 0 : 'cV_(1 + m)).
  rewrite {1}E qf_block /qf !trmx0 !mul0mx !mulmx0 trmx1 mul1mx mulmx1 mxE.
  rewrite !mxE !addr0. move=> H1.
  have /H1 : col_mx (1%:M : 'M[R]_1) 0 != 0 :> 'cV_(1 + m).
    rewrite col_mx_eq0 negb_and. apply/orP; left. by rewrite oner_eq0.
  by congr (_ < A _ _)%re; apply: val_inj.
set s := sqrt _. set v := (_ *: _ : 'cV_m).
have Hss : (0 < s)%re by exact: sqrt_lt_R0.
have Hur : ursubmx A = (dlsubmx A)^T by rewrite trmx_dlsub Hs.
have Hdr : sym (drsubmx A) by rewrite /sym trmx_drsub Hs.
have Hul : ulsubmx A = (s * s)%:M.
  apply/matrixP => i j. rewrite !ord1 !mxE eqxx mulr1n /s. toR. rewrite sqrt_sqrt; last lra.
  by congr (A _ _); apply: val_inj.
have Hv : s *: v = dlsubmx A.
  rewrite scalerA; have -> : s * (/ s)%re = 1 by exact: sqrt_inv_id. by rewrite scale1r.
have HB : spd (drsubmx A - v *m v^T).
  split; first by rewrite /sym linearB /= trmx_mul trmxK Hdr.
  move=> y Hy.
  (* take x with s x = - v^T y *)
  pose x : 'cV[R]_1 := - ((/ s)%re *: (v^T *m y)).
  have Hne : col_mx x y != 0 :> 'cV_(1 + m).
    by rewrite col_mx_eq0 negb_and Hy orbT.
  have := Hp _ Hne. rewrite {1}E qf_block Hur -Hv Hul.
  suff -> : (x^T *m (s * s)%:M *m x) 0 0 + (y^T *m (s *: v) *m x) 0 0 +
     ((x^T *m (s *: v)^T *m y) 0 0 + qf (drsubmx A) y) =
     qf (drsubmx A - v *m v^T) y by [].
  set q := (v^T *m y) 0 0.
  have Ey : y^T *m v = q%:M.
    apply/matrixP => i j; rewrite !ord1 mxE [RHS]mxE eqxx mulr1n /q mxE.
    by apply: eq_bigr => k _; rewrite !mxE mulrC.
  have Ev : v^T *m y = q%:M by apply/matrixP => i j; rewrite !ord1 [RHS]mxE eqxx mulr1n.
  rewrite qfD. have -> : qf (- (v *m v^T)) y = - (q * q).
    by rewrite /qf mulmxN mulNmx mxE mulmxA Ey -mulmxA Ev -scalar_mxM [X in - X]mxE eqxx mulr1n.
  have Ex : x = (- ((/ s)%re * q))%:M.
    by apply/matrixP => i j; rewrite !ord1 !mxE eqxx mulr1n; congr (- (_ * _)); rewrite /q mxE.
  set p := (- ((/ s)%re * q)) in Ex *.
  have -> : x^T *m (s * s)%:M *m x = (p * (s * s) * p)%:M by rewrite Ex tr_scalar_mx -!scalar_mxM.
  have -> : y^T *m (s *: v) *m x = (s * (q * p))%:M.
    by rewrite Ex -scalemxAr Ey -scalemxAl -scalar_mxM scale_scalar_mx.
  have -> : x^T *m (s *: v)^T *m y = (s * (p * q))%:M.
    have -> : (s *: v)^T = s *: v^T by apply/matrixP => i j; rewrite !mxE.
    by rewrite Ex tr_scalar_mx -scalemxAr -scalemxAl -mulmxA Ev -scalar_mxM scale_scalar_mx.
  rewrite !(mxE, eqxx, mulr1n) /p.
  have Hi := sqrt_inv_id Ha. rewrite -/s in Hi.
  move: (qf _ y) => Q. toR. toR_in Hi.
  have -> : (- (/ s * q) * (s * s) * - (/ s * q) + s * (q * - (/ s * q)) + (s * (- (/ s * q) * q) + Q))%re =
     ((s * / s) * (s * / s) * (q * q) - 2 * (s * / s) * (q * q) + Q)%re by ring.
  rewrite Hi. Rring.
by case: (IH _ HB) => L ->; eexists.
Qed.
Lemma chol_complete n : chol_total (@chol n).
Proof. by elim: n => [|m IH] /=; [exists 0 | exact: chol_step_total]. Qed.

Lemma chol_none n (A : 'M[R]_n) : sym A -> chol A = None <-> ~ spd A.
Proof.
move=> Hs; split.
  by move=> E /chol_complete [L]; rewrite E.
case E: (chol A) => [L|] // H. case: H. by apply: is_chol_spd; apply: chol_is_chol E.
Qed.

(** The factor is unique: the algorithm finds any factor there is. *)
Definition chol_uniq n (f : 'M[R]_n -> option 'M[R]_n) : Prop := forall A L, is_chol A L -> f A = Some L.
Lemma chol_step_uniq m (rec : 'M[R]_m -> option 'M[R]_m) : chol_uniq rec -> chol_uniq (chol_step rec).
Proof.
move=> IH A L [Ht [Hd E]].
have EL : L = block_mx ((L (lshift m 0) (lshift m 0))%:M : 'M_1) 0 (dlsubmx L) (drsubmx L).
  rewrite -{1}(submxK L). congr block_mx.
    by apply/matrixP => i j; rewrite !ord1 !mxE eqxx mulr1n.
  apply/matrixP => i j. rewrite !mxE. apply: (is_trig_mxP Ht). by rewrite /= ord1.
move: (Hd (lshift m 0)). set l := L (lshift m 0) (lshift m 0) in EL * => Hl.
set v := dlsubmx L in EL; set L' := drsubmx L in EL.
have EA : A = block_mx ((l * l)%:M : 'M_1) (l *: v^T) (l *: v) (v *m v^T + L' *m L'^T).
  rewrite -E EL tr_block_mx mulmx_block !trmx0 !mulmx0 !mul0mx !addr0 tr_scalar_mx -scalar_mxM.
  by rewrite mul_scalar_mx mul_mx_scalar.
have Ea : A (lshift m 0) (lshift m 0) = (l * l)%re by rewrite EA block_mxEul mxE eqxx mulr1n.
rewrite /chol_step Ea. have Hll : (0 < l * l)%re by exact: Rmult_lt_0_compat.
case: Rlt_dec => [_|//] /=. rewrite sqrt_square; last exact: Rlt_le.
have -> : (/ l)%re *: dlsubmx A = v.
  rewrite EA block_mxKdl scalerA. have -> : (/ l)%re * l = 1 by apply: Rinv_l; lra.
  by rewrite scale1r.
rewrite EA block_mxKdr addrC addKr (IH _ L'); first by rewrite -EL.
split; last split=> //.
  apply/is_trig_mxP => i j Hij; rewrite !mxE; apply: (is_trig_mxP Ht). by rewrite /= ltn_add2l.
by move=> i; rewrite !mxE; apply: Hd.
Qed.
Lemma chol_unique n : chol_uniq (@chol n).
Proof.
elim: n => [|m IH] /=; last exact: chol_step_uniq.
by move=> A L _; rewrite (flatmx0 L).
Qed.
Lemma is_chol_inj n (A L L' : 'M[R]_n) : is_chol A L -> is_chol A L' -> L = L'.
Proof. by move=> /chol_unique H /chol_unique; rewrite H => -[]. Qed.
