(** * Proofs about regularize_covariance. *)
From Coq Require Import Reals Lra ZArith String List Lia.
Set Warnings "-notation-overridden,-ambiguous-paths".
From mathcomp Require Import all_ssreflect all_algebra.
From Coq Require Import ClassicalEpsilon Classical_Pred_Type.
From Verif Require Import RStruct MatR Num Py Combination Spectral Regularization SpecReg.
Set Implicit Arguments.
Unset Strict Implicit.
Unset Printing Implicit Defensive.
Import GRing.Theory.
Local Open Scope ring_scope.
Delimit Scope R_scope with re.

(** ** The generator. *)
Section Yield.
  Context {V W : Type} (f : Z -> V -> res W).
  Lemma yield_nth d items ex j tw : yield_map f d = (items, ex) -> List.nth_error items j = Some tw ->
    exists v, List.nth_error d j = Some (tw.1, v) /\ f tw.1 v = Ok tw.2.
  Proof.
    elim: d items j => [|[t v] d IH] items j /=; first by case=> <- _; case: j.
    case E : (f t v) => [w|e]; last by case=> <- _; case: j.
    case Ey : (yield_map f d) => [l e] [<- Ee]. rewrite Ee in Ey. case: j => [|j] /=; last exact: IH Ey.
    by case=> <-; exists v.
  Qed.
  (** It stops at the first item that raises and has yielded everything before. *)
  Lemma yield_stops d items ex : yield_map f d = (items, ex) ->
    match ex with
    | None => List.length items = List.length d
    | Some e => exists d1 t v d2, d = List.app d1 ((t, v) :: d2) /\ List.length items = List.length d1 /\ f t v = Raise e
    end.
  Proof.
    elim: d items => [|[t v] d IH] items /=; first by case=> <- <-.
    case E : (f t v) => [w|e]; last by case=> <- <-; exists nil, t, v, d.
    case Ey : (yield_map f d) => [l e] [<- Ee]. rewrite Ee in Ey. have := IH _ Ey. case: ex {Ey IH Ee} => [e0|] /=; last by move=> ->.
    by case=> d1 [t' [v' [d2 [-> [-> H]]]]]; exists ((t, v) :: d1), t', v', d2.
  Qed.
  Lemma yield_total d : (forall t v, List.In (t, v) d -> exists w, f t v = Ok w) ->
    exists items, yield_map f d = (items, None) /\ List.length items = List.length d /\ List.map fst items = List.map fst d.
  Proof.
    elim: d => [|[t v] d IH] /= H; first by exists nil.
    have [w ->] := H t v (or_introl erefl).
    have [|items [-> [E1 E2]]] := IH; first by move=> t' v' Hin; apply: H; right.
    by exists ((t, w) :: items); rewrite /= E1 E2.
  Qed.
End Yield.

Section Reg.
  Context (n : nat).
  Implicit Types (eigh : eigh_t n) (S A : 'M[R]_n).

  (** ** The low rank part. *)
  Lemma lowrank_entry (lam : seq R) (Q : seq 'cV[R]_n) a b : size lam = size Q ->
    (of_cols Q *m diag_mx (\row_k nth 0 lam k) *m (of_cols Q)^T) a b =
    \sum_(p <- zip lam Q) p.1 * p.2 a 0 * p.2 b 0.
  Proof.
    move=> Hs. rewrite mxE (big_nth (0, 0)) big_mkord size_zip Hs minnn. apply: eq_bigr => k _.
    rewrite mul_mx_diag !mxE nth_zip //=. by rewrite [_ * nth _ _ _]mulrC.
  Qed.
  Lemma lowrank_sym (lam : seq R) (Q : seq 'cV[R]_n) :
    sym (of_cols Q *m diag_mx (\row_k nth 0 lam k) *m (of_cols Q)^T).
  Proof. by rewrite /sym !trmx_mul trmxK tr_diag_mx mulmxA. Qed.

  Lemma volas_pos S i : (0 < S i i)%re -> (0 < volas S i ord0)%re.
  Proof. move=> H. rewrite mxE. exact: sqrt_lt_R0. Qed.
  Lemma volas_sq S i : (0 < S i i)%re -> volas S i 0 * volas S i 0 = S i i.
  Proof. move=> H. rewrite mxE. toR. rewrite sqrt_sqrt //. lra. Qed.
  Lemma rcp_l (x : R) : (0 < x)%re -> x * rcp x = 1.
  Proof. move=> H. rewrite /rcp. toR. eqR. by field; lra. Qed.
  Lemma unscale S i j : (0 < S i i)%re -> (0 < S j j)%re -> volas S i 0 * correlation S i j * volas S j 0 = S i j.
  Proof.
    move=> /volas_pos Hi /volas_pos Hj. rewrite [correlation S i j]mxE.
    move: (rcp_l Hi) (rcp_l Hj). move: (volas S i 0) (volas S j 0) (rcp (volas S i 0)) (rcp (volas S j 0)) => p q p' q' Ep Eq.
    transitivity ((p * p') * S i j * (q * q')); first by Rring.
    by rewrite Ep Eq mul1r mulr1.
  Qed.

  Lemma posP (S : 'M[R]_n) : reflect (forall i, (0 < S i i)%re) [forall i, if Rlt_dec 0 (S i i) then true else false].
  Proof.
    apply: (iffP forallP) => H i; have := H i; case: Rlt_dec => //.
  Qed.

  (** C31: diagonal and symmetry, whatever eigh returns. *)
  Lemma dense_inv eigh r fr it : regularize_one eigh r false fr = Ok it ->
    exists S M, s_val fr = Some S /\ it = Dense (s_cols fr) (s_cols fr) M /\ (forall i, (0 < S i i)%re) /\
      exists L, regularize_correlation eigh (correlation S) r = Ok L /\
        forall i j, M i j = volas S i 0 * Approximation L i j * volas S j 0.
  Proof.
    rewrite /regularize_one. case E : (s_val fr) => [S|//]. case: posP => // Hp.
    case EL : (regularize_correlation _ _ _) => [L|//] /= [<-].
    exists S; eexists; split=> //; split=> //; split=> //. exists L. split=> // i j. by rewrite mxE.
  Qed.
  Lemma approx_diag eigh A r L i : regularize_correlation eigh A r = Ok L -> Approximation L i i = A i i.
  Proof.
    rewrite /regularize_correlation. case: eigh_call => //= lq [<-] /=. rewrite addE [diag_mx _ i i]mxE eqxx mulr1n [(\row_i0 _) _ _]mxE subE.
    by rewrite addrC subrK.
  Qed.
  Lemma approx_sym eigh A r L : regularize_correlation eigh A r = Ok L -> sym (Approximation L).
  Proof.
    rewrite /regularize_correlation. case: eigh_call => //= lq [<-] /=.
    by rewrite /sym trD lowrank_sym tr_diag_mx.
  Qed.
  Lemma reg_dense eigh r fr it : regularize_one eigh r false fr = Ok it ->
    exists S M, s_val fr = Some S /\ it = Dense (s_cols fr) (s_cols fr) M /\ (forall i, M i i = S i i) /\ sym M.
  Proof.
    case/dense_inv => S [M [H1 [H2 [H3 [L [H4 H5]]]]]]. exists S, M. do 2 split=> //. split.
      by move=> i; rewrite H5 (approx_diag i H4) unscale.
    apply/matrixP => i j. rewrite mxE !H5. have E := approx_sym H4.
    have -> : Approximation L i j = Approximation L j i by rewrite -[in LHS]E [LHS]mxE. Rring.
  Qed.

  (** ** Decomposition of the correlation matrix. *)
  Lemma correlation_sym S : sym S -> sym (correlation S).
  Proof.
    move=> H. apply/matrixP => i j. rewrite !mxE. have -> : S j i = S i j by rewrite -[in LHS]H [LHS]mxE. Rring.
  Qed.
  Lemma eig_entry A U d a b : is_eig A U d -> A a b = \sum_i d 0 i * U a i * U b i.
  Proof.
    move=> [HU [HA _]]. have HU' := mulmx1C HU. have -> : A = U *m diag_mx d *m U^T by rewrite -HA -mulmxA HU' mulmx1.
    rewrite mxE. apply: eq_bigr => i _. rewrite mul_mx_diag !mxE. by rewrite [_ * d 0 i]mulrC.
  Qed.
  Lemma eig_qf A U d x : is_eig A U d -> qf A x = \sum_i d 0 i * ((U^T *m x) i 0 * (U^T *m x) i 0).
  Proof.
    move=> [HU [HA _]]. have HU' := mulmx1C HU. have -> : A = U *m diag_mx d *m U^T by rewrite -HA -mulmxA HU' mulmx1.
    rewrite /qf !mulmxA -[x^T *m U]trmxK trmx_mul trmxK -!mulmxA mxE. apply: eq_bigr => i _.
    rewrite mul_diag_mx !mxE. by rewrite mulrCA.
  Qed.
  Lemma eig_val A U d i : is_eig A U d -> qf A (col i U) = d 0 i.
  Proof.
    move=> H. rewrite (eig_qf _ H). case: H => [HU _]. have E : forall j, (U^T *m col i U) j 0 = (j == i)%:R.
      by move=> j; rewrite colE mulmxA HU mul1mx !mxE andbT.
    rewrite (bigD1 i) //= big1 ?addr0; first by rewrite E eqxx !mulr1.
    by move=> j /negbTE Hj; rewrite E Hj !mulr0.
  Qed.
  Lemma eig_psd A U d i : is_eig A U d -> psd A -> (0 <= d ord0 i)%re.
  Proof. by move=> /(@eig_val _ _ _ i) <- [_]; apply. Qed.
  Lemma correlation_psd S : (forall i, (0 < S i i)%re) -> psd S -> psd (correlation S).
  Proof.
    move=> Hp [Hs Hq]. split; first exact: correlation_sym. move=> x.
    pose B : 'M[R]_n := diag_mx (\row_i rcp (volas S i 0)).
    have -> : correlation S = B^T *m S *m B.
      apply/matrixP => i j. rewrite tr_diag_mx mul_mx_diag mul_diag_mx !mxE. by [].
    by rewrite qf_congr.
  Qed.

  (** The part of the decomposition that is kept, and the rest. *)
  Definition kept (r : nat) (i : 'I_n) : bool := (n - r <= i)%N.
  Lemma kept_index r i : (0 < r)%N -> (r <= n)%N ->
    index_in (Z.sub (Z.of_nat n) (Z.of_nat r)) (Z.sub (Z.of_nat n) 1) i = kept r i.
  Proof.
    move=> H0 /leP Hr. have Hi := ltn_ord i. move/ltP: Hi => Hi. rewrite /index_in /kept. apply/idP/idP.
    - case/andP => /Z.leb_le H1 _. apply/leP. rewrite -minusE. lia.
    - move/leP. rewrite -minusE => H. apply/andP; split; apply/Z.leb_le; lia.
  Qed.
  Lemma call_ok eigh A r lq : eigh_call eigh A (Z.sub (Z.of_nat n) (Z.of_nat r)) (Z.sub (Z.of_nat n) 1) = Ok lq ->
    (0 < r)%N /\ (r <= n)%N /\ eigh A (Z.sub (Z.of_nat n) (Z.of_nat r)) (Z.sub (Z.of_nat n) 1) = Some lq.
  Proof.
    rewrite /eigh_call. case H : (_ && _ && _)%bool => //. case E : (eigh _ _ _) => [lq'|] //= [<-].
    case/andP: H => /andP [/Z.leb_le H1 /Z.leb_le H2] /Z.ltb_lt H3. split; first by apply/ltP; lia. by split=> //; apply/leP; lia.
  Qed.
  Lemma corr_struct eigh A r L : eigh_ok eigh -> sym A -> regularize_correlation eigh A (Z.of_nat r) = Ok L ->
    (0 < r)%N /\ (r <= n)%N /\ exists U d, is_eig A U d /\
      Lambda L = rev [seq d 0 i | i <- enum 'I_n & kept r i] /\ Loading L = rev [seq col i U | i <- enum 'I_n & kept r i] /\
      (forall a b, (Approximation L - D L) a b = \sum_(i | kept r i) d 0 i * U a i * U b i) /\
      (forall a b, D L a b = (\sum_(i | ~~ kept r i) d 0 i * U a i * U a i) *+ (a == b)).
  Proof.
    move=> Hok Hs. rewrite /regularize_correlation. case Ec : eigh_call => [lq|//] /= [<-] /=.
    case: (call_ok Ec) => Hr0 [Hr E]. do 2 split=> //. case: lq E {Ec} => lam Q /(Hok _ _ _ _ _ Hs) [U [d [He [-> ->]]]].
    have Ek : forall T (f : 'I_n -> T), [seq f i | i <- enum 'I_n & index_in (Z.sub (Z.of_nat n) (Z.of_nat r)) (Z.sub (Z.of_nat n) 1) i] = [seq f i | i <- enum 'I_n & kept r i].
      move=> T f. congr [seq _ | _ <- _]. apply: eq_filter => i. exact: kept_index.
    rewrite !Ek. exists U, d. do 3 split=> //.
    set R_lo := of_cols _ *m _ *m _.
    have El : forall a b, R_lo a b = \sum_(i | kept r i) d 0 i * U a i * U b i.
      move=> a b. rewrite /R_lo lowrank_entry ?size_rev ?size_map // -rev_zip ?size_map //.
      rewrite (perm_big _ (permEl (perm_rev _))).
      by rewrite zip_map big_map big_filter big_enum_cond /=; apply: eq_bigr => i _; rewrite !mxE.
    split; first by move=> a b; rewrite addrK El.
    move=> a b. rewrite mxE [(\row__ _) _ _]mxE subE El (eig_entry _ _ He) (bigID (kept r)) /= addrC addKr //.
  Qed.

  (** ** Factor models. *)
  Lemma fm_entry k (F : 'M[R]_(n, k)) (d : 'cV[R]_n) a b :
    factor_model F d a b = \sum_i F a i * F b i + d a 0 *+ (a == b).
  Proof.
    rewrite /factor_model addE [diag_mx _ _ _]mxE [d^T _ _]mxE mxE. congr (_ + _). apply: eq_bigr => i _. by rewrite mxE.
  Qed.
  Lemma diag_qf (d : 'rV[R]_n) x : qf (diag_mx d) x = \sum_i d 0 i * (x i 0 * x i 0).
  Proof.
    rewrite /qf -mulmxA mxE. apply: eq_bigr => i _. rewrite mul_diag_mx !mxE. by rewrite mulrCA.
  Qed.
  Lemma fm_sym k (F : 'M[R]_(n, k)) (d : 'cV[R]_n) : sym (factor_model F d).
  Proof. by rewrite /sym trD trmx_mul trmxK tr_diag_mx. Qed.
  Lemma fm_qf k (F : 'M[R]_(n, k)) (d : 'cV[R]_n) x : qf (factor_model F d) x = nsq (F^T *m x) + \sum_i d i 0 * (x i 0 * x i 0).
  Proof.
    rewrite qfD -{1}[F]trmxK qf_gram diag_qf. congr (_ + _). by apply: eq_bigr => i _; rewrite mxE.
  Qed.
  Lemma fm_psd k (F : 'M[R]_(n, k)) (d : 'cV[R]_n) : (forall i, (0 <= d i ord0)%re) -> psd (factor_model F d).
  Proof.
    move=> Hd. split; first exact: fm_sym. move=> x. rewrite fm_qf. apply: Rplus_le_le_0_compat; first exact: nsq_ge0.
    apply: sumR_ge0 => i _. apply: Rmult_le_pos; [exact: Hd|exact: Rle_0_sqr].
  Qed.
  Lemma fm_spd k (F : 'M[R]_(n, k)) d : pos_vec d -> spd (factor_model F d).
  Proof.
    move=> Hd. split; first exact: fm_sym. move=> x Hx. rewrite fm_qf. apply: Rplus_le_lt_0_compat; first exact: nsq_ge0.
    have [i Hi] : exists i, x i 0 != 0.
      apply/existsP. apply/negbNE. rewrite negb_exists. apply/negP => /forallP H. case/eqP: Hx. apply/colP => i.
      rewrite [RHS]mxE. apply/eqP. by have := H i; rewrite negbK.
    apply: (@sumR_gt0 _ _ i).
    - move=> j. apply: Rmult_le_pos; [exact: Rlt_le|exact: Rle_0_sqr].
    - apply: Rmult_lt_0_compat => //. apply: Rsqr_pos_lt. exact/eqP.
  Qed.

  (** ** The factored item. *)
  Definition kept_cols (r : nat) (S : 'M[R]_n) (U : 'M[R]_n) (d : 'rV[R]_n) : seq 'cV[R]_n :=
    rev [seq \col_a (volas S a 0 * U a i * sqrt (d 0 i)) | i <- enum 'I_n & kept r i].
  Lemma kept_cols_size r S U d : (r <= n)%N -> size (kept_cols r S U d) = r.
  Proof.
    move=> Hr. rewrite size_rev size_map size_filter. rewrite -sum1_count big_enum_cond /= sum1_card.
    have := cardC (fun i : 'I_n => kept r i). rewrite card_ord.
    have -> : #|[predC (fun i : 'I_n => kept r i)]| = (n - r)%N.
      rewrite -[RHS]card_ord. have H : (n - r <= n)%N by exact: leq_subr.
      have Hinj : injective (widen_ord H) by move=> x y /(congr1 val) /= /val_inj.
      rewrite -(card_imset _ Hinj). apply: eq_card => i. rewrite inE /kept -ltnNge. apply/idP/imsetP.
      - by move=> Hi; exists (Ordinal Hi) => //; apply: val_inj.
      - by case=> j _ -> /=.
    move=> E. apply/eqP. rewrite -(eqn_add2r (n - r)) E subnKC //.
  Qed.
  Lemma of_cols_gram (q : seq 'cV[R]_n) a b : (of_cols q *m (of_cols q)^T) a b = \sum_(x <- q) x a 0 * x b 0.
  Proof. rewrite mxE (big_nth 0) big_mkord. by apply: eq_bigr => k _; rewrite !mxE. Qed.

  Definition dense_of (S : 'M[R]_n) (L : LowRank n) : 'M[R]_n := \matrix_(i, j) (volas S i 0 * Approximation L i j * volas S j 0).
  Definition F_of (S : 'M[R]_n) (L : LowRank n) : seq (option 'cV[R]_n) :=
    [seq loading_col (volas S) p.1 p.2 | p <- zip (Lambda L) (Loading L)].
  Definition d_of (S : 'M[R]_n) (L : LowRank n) : 'cV[R]_n := \col_i (volas S i 0 * D L i i * volas S i 0).
  Lemma one_inv eigh r b fr it : regularize_one eigh r b fr = Ok it ->
    exists S L, s_val fr = Some S /\ (forall i, (0 < S i i)%re) /\ regularize_correlation eigh (correlation S) r = Ok L /\
      it = if b then Factored (s_cols fr) (F_of S L) (s_cols fr) (d_of S L) else Dense (s_cols fr) (s_cols fr) (dense_of S L).
  Proof.
    rewrite /regularize_one. case: (s_val fr) => [S|//]. case: posP => // Hp.
    case EL : (regularize_correlation _ _ _) => [L|//] /= E. exists S, L. do 3 split=> //. by case: b E => -[<-].
  Qed.
  Lemma one_ok eigh r b fr S L : s_val fr = Some S -> (forall i, (0 < S i i)%re) ->
    regularize_correlation eigh (correlation S) r = Ok L ->
    regularize_one eigh r b fr = Ok (if b then Factored (s_cols fr) (F_of S L) (s_cols fr) (d_of S L)
                                     else Dense (s_cols fr) (s_cols fr) (dense_of S L)).
  Proof. move=> HS Hp EL. rewrite /regularize_one HS. case: posP => //. rewrite EL /=. by case: b. Qed.

  (** The factored and the dense form. *)
  Lemma struct_eq eigh r S L : eigh_ok eigh -> psd S -> (forall i, (0 < S i i)%re) ->
    regularize_correlation eigh (correlation S) (Z.of_nat r) = Ok L ->
    exists f, F_of S L = map Some f /\ size f = r /\ (0 < r)%N /\ (r <= n)%N /\ (forall a, (0 <= d_of S L a ord0)%re) /\
      dense_of S L = factor_model (of_cols f) (d_of S L) /\ (r = n -> dense_of S L = S) /\
      exists U d, is_eig (correlation S) U d /\ f = kept_cols r S U d /\ (forall i, (0 <= d ord0 i)%re).
  Proof.
    move=> Hok Hpsd Hp EL. have Hsym : sym S by case: Hpsd.
    case: (corr_struct Hok (correlation_sym Hsym) EL) => Hr0 [Hr [U [d [He [E1 [E2 [E3 E4]]]]]]].
    have Hd : forall i, (0 <= d ord0 i)%re by move=> i; apply: (eig_psd i He); exact: correlation_psd.
    exists (kept_cols r S U d). split.
      rewrite /F_of E1 E2 -rev_zip ?size_map // zip_map /kept_cols !map_rev -!map_comp. congr rev.
      apply: eq_map => i /=. rewrite /loading_col /sqrt_opt. case: Rlt_dec => [Hlt|_] /=.
        by exfalso; apply: (Rlt_not_le _ _ Hlt); exact: Hd.
      congr Some. apply/colP => a. by rewrite !mxE.
    split; first exact: kept_cols_size. do 2 split=> //.
    split.
      move=> a. rewrite mxE E4 eqxx mulr1n.
      have H1 : (0 <= \sum_(i | ~~ kept r i) d ord0 i * (U a i : R) * (U a i : R))%re.
        apply: sumR_ge0 => i _. rewrite -mulrA. apply: Rmult_le_pos; [exact: Hd|exact: Rle_0_sqr].
      move: H1. set s := BigOp.bigop _ _ _ => H1. rewrite mulrAC. apply: Rmult_le_pos => //. exact: Rle_0_sqr.
    have Hv : forall a b, dense_of S L a b = volas S a 0 * (\sum_(i | kept r i) d 0 i * U a i * U b i + D L a b) * volas S b 0.
      by move=> a b; rewrite [LHS]mxE -E3 -addE subrK.
    split.
      apply/matrixP => a b. rewrite Hv /factor_model addE of_cols_gram [diag_mx _ _ _]mxE [_^T _ _]mxE [d_of _ _ _ _]mxE.
      rewrite mulrDr mulrDl. congr (_ + _); last by rewrite !E4 eqxx mulr1n; case: eqP => [->|_]; rewrite ?mulr1n ?mulr0n ?mulr0 ?mul0r.
      rewrite /kept_cols (perm_big _ (permEl (perm_rev _))) big_map big_filter big_enum_cond /=.
      rewrite mulr_sumr mulr_suml. apply: eq_bigr => i _. rewrite ![(\col__ _) _ _]mxE.
      have : sqrt (d 0 i) * sqrt (d 0 i) = d 0 i by exact: sqrt_sqrt (Hd i).
      move: (sqrt (d 0 i)) => z <-. move: (volas S a 0) (volas S b 0) (U a i) (U b i) => p q x y. Rring.
    split; last by exists U, d.
    move=> En. apply/matrixP => a b. rewrite Hv E4 -[RHS](unscale (Hp a) (Hp b)) (eig_entry _ _ He).
    rewrite [X in _ + X](_ : _ = 0) ?addr0; last by rewrite big_pred0 ?mul0rn // => i; rewrite /kept En subnn.
    congr (_ * _ * _). apply: eq_bigl => i. by rewrite /kept En subnn.
  Qed.

  (** The same matrix in both formats, whatever eigenvalues and eigenvectors were computed. *)
  Lemma sqrt_opt_sq (x s : R) : sqrt_opt x = Some s -> s * s = x.
  Proof. rewrite /sqrt_opt. case: Rlt_dec => // H [<-]. apply: sqrt_sqrt. exact: Rnot_lt_le. Qed.
  Lemma loading_some vola (ps : seq (R * 'cV[R]_n)) f : [seq loading_col vola p.1 p.2 | p <- ps] = map Some f ->
    forall a b, \sum_(x <- f) x a 0 * x b 0 = \sum_(p <- ps) vola a 0 * (p.1 * p.2 a 0 * p.2 b 0) * vola b 0.
  Proof.
    elim: ps f => [|[l q] ps IH] [|x f] //= => [_ a b|]; first by rewrite !big_nil.
    case. rewrite /loading_col. case E : (sqrt_opt l) => [s|//] /= [<-] /IH H a b. rewrite !big_cons H /=. congr (_ + _).
    rewrite ![(\col__ _) _ _]mxE -(sqrt_opt_sq E). move: (vola a 0) (vola b 0) (q a 0) (q b 0) => v w y z. Rring.
  Qed.
  Lemma dense_factored eigh S A r L f : regularize_correlation eigh A r = Ok L -> size (Lambda L) = size (Loading L) ->
    F_of S L = map Some f -> dense_of S L = factor_model (of_cols f) (d_of S L).
  Proof.
    rewrite /regularize_correlation. case: eigh_call => //= lq [<-] /= Hs HF. apply/matrixP => a b.
    rewrite [LHS]mxE /= /factor_model [RHS]addE of_cols_gram (loading_some HF) [diag_mx _ _ _]mxE [_^T _ _]mxE [d_of _ _ _ _]mxE /=.
    rewrite addE mulrDr mulrDl. congr (_ + _).
      rewrite lowrank_entry // mulr_sumr mulr_suml. by [].
    set dg := \row_i _. rewrite ![diag_mx dg _ _]mxE eqxx mulr1n. by case: eqP => [->|_]; rewrite ?mulr1n ?mulr0n ?mulr0 ?mul0r.
  Qed.

  (** ** When it raises. *)
  Lemma reg_raises eigh r b fr e : eigh_total eigh -> (forall S, s_val fr = Some S -> sym S) -> regularize_one eigh r b fr = Raise e ->
    e = ValueError /\ (s_val fr = None \/ (exists S i, s_val fr = Some S /\ (S i i <= 0)%re) \/ ~ (Z.le 1 r /\ Z.le r (Z.of_nat n))).
  Proof.
    move=> Ht Hsym. rewrite /regularize_one. case Ev : (s_val fr) => [S|]; last by case=> <-; split=> //; left.
    case: posP => Hp.
      case EL : (regularize_correlation _ _ _) => [L|e'] /=; first by case: b.
      case=> <-. move: EL. rewrite /regularize_correlation /eigh_call. case Hb : (_ && _ && _)%bool.
        case E : (eigh _ _ _) => [lq|] //= _. case: (Ht _ _ _ (correlation_sym (Hsym _ Ev)) E).
      move=> /= [<-]. split=> //. right; right. case=> H1 H2. move/negP: Hb. apply. apply/andP; split; first (apply/andP; split); first [apply/Z.leb_le | apply/Z.ltb_lt]; lia.
    case=> <-. split=> //. right; left. have [i Hi] : exists i, ~ (0 < S i i)%re by apply: Classical_Pred_Type.not_all_ex_not.
    exists S, i. split=> //. exact: Rnot_lt_le.
  Qed.
  Lemma reg_bad eigh r b fr : s_val fr = None \/ (exists S i, s_val fr = Some S /\ (S i i <= 0)%re) \/ ~ (Z.le 1 r /\ Z.le r (Z.of_nat n)) ->
    regularize_one eigh r b fr = Raise ValueError.
  Proof.
    rewrite /regularize_one. case E : (s_val fr) => [S|] //. case=> [//|]. case: posP => // Hp.
    case=> [[S' [i [[<-] Hi]]]|Hr]; first by have := Hp i; lra.
    rewrite /regularize_correlation /eigh_call. case Hb : (_ && _ && _)%bool => //. case: Hr. move: Hb => /andP [/andP [/Z.leb_le H1 /Z.leb_le H2] _]. lia.
  Qed.

  (** ** An eigen-solver. *)
  Definition eigh_exact : eigh_t n := fun A lo hi =>
    match excluded_middle_informative (exists Ud : 'M[R]_n * 'rV[R]_n, is_eig A Ud.1 Ud.2) with
    | left H => let Ud := projT1 (constructive_indefinite_description _ H) in
        Some ([seq Ud.2 0 i | i <- enum 'I_n & index_in lo hi i], [seq col i Ud.1 | i <- enum 'I_n & index_in lo hi i])
    | right _ => None
    end.
  Lemma eigh_exact_ok : eigh_ok eigh_exact.
  Proof.
    move=> A lo hi lam Q Hs. rewrite /eigh_exact. case: excluded_middle_informative => // H.
    case: constructive_indefinite_description => -[U d] /= He [<- <-]. by exists U, d.
  Qed.
  Lemma eigh_exact_total : eigh_total eigh_exact.
  Proof.
    move=> A lo hi Hs. rewrite /eigh_exact. case: excluded_middle_informative => // H. exfalso. apply: H.
    case: (spectral Hs) => U [d He]. by exists (U, d).
  Qed.
End Reg.
