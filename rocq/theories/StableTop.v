(** * Continuity of matrix functions along shrinking neighbourhoods (tools for C143). *)
From Coq Require Import Reals Lra List Lia Psatz.
Set Warnings "-notation-overridden,-ambiguous-paths".
From mathcomp Require Import all_ssreflect all_algebra.
From Verif Require Import RStruct MatR CombScale CombNear.
Set Implicit Arguments.
Unset Strict Implicit.
Unset Printing Implicit Defensive.
Import GRing.Theory.
Local Open Scope ring_scope.
Delimit Scope R_scope with re.

(** [N e x]: x is within e of the centre; larger e, more points. *)
Section Ct.
  Context (T : Type) (N : R -> T -> Prop).
  Hypothesis Nle : forall e e' x, (e <= e')%re -> N e x -> N e' x.
  (** P holds near the centre. *)
  Definition ev (P : T -> Prop) : Prop := exists e, (0 < e)%re /\ forall x, N e x -> P x.
  Lemma ev_imp (P Q : T -> Prop) : (forall x, P x -> Q x) -> ev P -> ev Q.
  Proof. move=> H [e [He E]]. exists e. split=> // x Hx. exact: H (E x Hx). Qed.
  Lemma ev_and (P Q : T -> Prop) : ev P -> ev Q -> ev (fun x => P x /\ Q x).
  Proof.
    move=> [e1 [H1 E1]] [e2 [H2 E2]]. exists (Rmin e1 e2). split; first exact: Rmin_pos.
    move=> x Hx. split; [apply: E1|apply: E2]; apply: Nle Hx; [exact: Rmin_l|exact: Rmin_r].
  Qed.
  Lemma ev_true (P : T -> Prop) : (forall x, P x) -> ev P.
  Proof. move=> H. exists 1%re. split=> //. lra. Qed.
  Lemma ev_list (A : Type) (P : A -> T -> Prop) l : (forall a, List.In a l -> ev (P a)) -> ev (fun x => forall a, List.In a l -> P a x).
  Proof.
    elim: l => [|a l IH] H; first by apply: ev_true.
    have := ev_and (H a (or_introl erefl)) (IH (fun b Hb => H b (or_intror Hb))). apply: ev_imp => x [H1 H2] b [<-|Hb] //. exact: H2.
  Qed.
  Lemma in_enum (I : finType) (i : I) : List.In i (enum I).
  Proof. have : i \in enum I by rewrite mem_enum. elim: (enum I) => [|a l IH] //=. rewrite inE => /orP [/eqP ->|H]; [by left|right; exact: IH]. Qed.
  Lemma ev_fin (I : finType) (P : I -> T -> Prop) : (forall i, ev (P i)) -> ev (fun x => forall i, P i x).
  Proof. move=> H. have := ev_list (l := enum I) (fun i _ => H i). apply: ev_imp => x Hx i. apply: Hx. exact: in_enum. Qed.

  (** Real functions. *)
  Definition ctR (f : T -> R) (y : R) : Prop := forall d, (0 < d)%re -> ev (fun x => (Rabs (f x - y) <= d)%re).
  Definition ct m n (f : T -> 'M[R]_(m, n)) (A : 'M[R]_(m, n)) : Prop := forall d, (0 < d)%re -> ev (fun x => (mnorm (f x - A) <= d)%re).

  Lemma ctR_comp (f : T -> R) y (g : R -> R) : ctR f y -> continuity_pt g y -> ctR (fun x => g (f x)) (g y).
  Proof.
    move=> Hf Hg d Hd. have [a [Ha A]] := Hg d Hd. have Ha2 : (0 < a / 2)%re by lra. have := Hf _ Ha2.
    apply: ev_imp => x Hx. case: (Req_dec (f x) y) => [->|Hne]; first by rewrite Rminus_diag_eq // Rabs_R0; lra.
    apply: Rlt_le. apply: (A (f x)). split; first by split=> // E; apply: Hne. rewrite /= /R_dist. lra.
  Qed.
  Lemma ctR_pos (f : T -> R) y : ctR f y -> (0 < y)%re -> ev (fun x => (y / 2 <= f x)%re).
  Proof. move=> Hf Hy. have H2 : (0 < y / 2)%re by lra. have := Hf _ H2. apply: ev_imp => x Hx. have := Rle_abs (- (f x - y)). rewrite Rabs_Ropp. lra. Qed.
  Lemma ct_const m n (A : 'M[R]_(m, n)) : ct (fun _ => A) A.
  Proof. move=> d Hd. apply: ev_true => x. rewrite subrr. have -> : mnorm (0 : 'M[R]_(m, n)) = 0 by rewrite /mnorm big1 // => i _; rewrite big1 // => j _; rewrite mxE Rabs_R0. toR. lra. Qed.
  Lemma ct_ext m n (f g : T -> 'M[R]_(m, n)) A : ev (fun x => f x = g x) -> ct f A -> ct g A.
  Proof. move=> H Hf d Hd. have := ev_and H (Hf d Hd). apply: ev_imp => x [<-]. done. Qed.
  Lemma ct_entry m n (f : T -> 'M[R]_(m, n)) (A : 'M[R]_(m, n)) i j : ct f A -> ctR (fun x => f x i j) (A i j).
  Proof. move=> Hf d Hd. have := Hf d Hd. apply: ev_imp => x Hx. have := mnorm_entry (f x - A) i j. rewrite !mxE => H. apply: Rle_trans _ Hx. exact: H. Qed.
  Lemma sum_const_le (I : finType) (F : I -> R) c : (forall i, (F i <= c)%re) -> (\sum_i F i <= INR #|I| * c)%re.
  Proof. move=> H. have -> : (INR #|I| * c)%re = \sum_(i : I) c by rewrite sumr_const mulrn_INR. apply: sumR_le => i _. exact: H. Qed.
  Lemma mnorm_le m n (A : 'M[R]_(m, n)) c : (forall i j, (Rabs (A i j) <= c)%re) -> (mnorm A <= INR m * (INR n * c))%re.
  Proof.
    move=> H. have := sum_const_le (F := fun i : 'I_m => \sum_j Rabs (A i j)) (c := INR n * c)%re. rewrite card_ord. apply=> i.
    have := sum_const_le (F := fun j : 'I_n => Rabs (A i j)) (c := c). rewrite card_ord. by apply.
  Qed.
  Lemma ct_mx m n (f : T -> 'M[R]_(m, n)) (A : 'M[R]_(m, n)) : (forall i j, ctR (fun x => f x i j) (A i j)) -> ct f A.
  Proof.
    move=> H d Hd. have Hmn : (0 <= INR m * INR n)%re by apply: Rmult_le_pos; exact: pos_INR.
    pose c := (d / (INR m * INR n + 1))%re. have Hc : (0 < c)%re by apply: Rdiv_lt_0_compat; lra.
    have := ev_fin (fun i => ev_fin (fun j => H i j c Hc)). apply: ev_imp => x Hx.
    apply: Rle_trans (mnorm_le (c := c) _) _; first by move=> i j; have := Hx i j; rewrite !mxE.
    have E : (d = (INR m * INR n + 1) * c)%re by rewrite /c; field; lra. rewrite E. nra.
  Qed.
  Lemma ct_add m n (f g : T -> 'M[R]_(m, n)) A B : ct f A -> ct g B -> ct (fun x => f x + g x) (A + B).
  Proof.
    move=> Hf Hg d Hd. have H2 : (0 < d / 2)%re by lra. have := ev_and (Hf _ H2) (Hg _ H2). apply: ev_imp => x [H1 H3].
    have -> : f x + g x - (A + B) = (f x - A) + (g x - B) by rewrite opprD addrACA. apply: Rle_trans (mnormD _ _) _. lra.
  Qed.
  Lemma ct_opp m n (f : T -> 'M[R]_(m, n)) A : ct f A -> ct (fun x => - f x) (- A).
  Proof. move=> Hf d Hd. have := Hf d Hd. apply: ev_imp => x. by rewrite -opprD mnormN. Qed.
  Lemma ct_sum (I : Type) m n (l : list I) (f : I -> T -> 'M[R]_(m, n)) A : (forall i, List.In i l -> ct (f i) (A i)) -> ct (fun x => \sum_(i <- l) f i x) (\sum_(i <- l) A i).
  Proof.
    elim: l => [|a l IH] H.
      rewrite big_nil. apply: ct_ext (ct_const _). apply: ev_true => x. by rewrite big_nil.
    rewrite big_cons. apply: ct_ext (ct_add (H a (or_introl erefl)) (IH (fun b Hb => H b (or_intror Hb)))). apply: ev_true => x. by rewrite big_cons.
  Qed.
  Lemma ct_sum_ord m n K (f : 'I_K -> T -> 'M[R]_(m, n)) A : (forall i, ct (f i) (A i)) -> ct (fun x => \sum_i f i x) (\sum_i A i).
  Proof.
    move=> H. exact: (ct_sum (l := index_enum _) (fun i _ => H i)).
  Qed.
  Lemma ct_tr m n (f : T -> 'M[R]_(m, n)) A : ct f A -> ct (fun x => (f x)^T) A^T.
  Proof. move=> Hf d Hd. have := Hf d Hd. apply: ev_imp => x. by rewrite -trB mnormT. Qed.
  Lemma ct_mul m n p (f : T -> 'M[R]_(m, n)) (g : T -> 'M[R]_(n, p)) A B : ct f A -> ct g B -> ct (fun x => f x *m g x) (A *m B).
  Proof.
    move=> Hf Hg d Hd. set a := mnorm A. set b := mnorm B. have Ha : (0 <= a)%re := mnorm_ge0 _. have Hb : (0 <= b)%re := mnorm_ge0 _.
    pose t := Rmin 1 (d / (1 + a + b))%re. have Ht0 : (0 < d / (1 + a + b))%re by apply: Rdiv_lt_0_compat; lra.
    have Ht : (0 < t)%re by apply: Rmin_pos; lra. have Ht1 : (t <= 1)%re := Rmin_l _ _.
    have Ht2 : (t * (1 + a + b) <= d)%re.
      apply: Rle_trans (_ : d / (1 + a + b) * (1 + a + b) <= _)%re; first by apply: Rmult_le_compat_r; [lra|exact: Rmin_r]. apply: Req_le. field. lra.
    have := ev_and (Hf t Ht) (Hg t Ht). apply: ev_imp => x [H1 H2].
    have -> : f x *m g x - A *m B = (f x - A) *m (g x - B) + ((f x - A) *m B + A *m (g x - B)).
      have -> : f x *m g x = (f x - A + A) *m (g x - B + B) by rewrite !subrK.
      rewrite mulmxDl !mulmxDr !addrA. by rewrite addrK.
    apply: Rle_trans (mnormD _ _) _. have := mnormD ((f x - A) *m B) (A *m (g x - B)).
    have := mnormM (f x - A) (g x - B). have := mnormM (f x - A) B. have := mnormM A (g x - B).
    have := mnorm_ge0 (f x - A). have := mnorm_ge0 (g x - B). rewrite -/a -/b. move: H1 H2.
    move: (mnorm (f x - A)) (mnorm (g x - B)) => u v.
    move: (mnorm ((f x - A) *m (g x - B))) (mnorm ((f x - A) *m B)) (mnorm (A *m (g x - B))) (mnorm (_ + _)) => p1 p2 p3 p4. nra.
  Qed.
  Lemma ct_scale m n (a : T -> R) y (f : T -> 'M[R]_(m, n)) A : ctR a y -> ct f A -> ct (fun x => a x *: f x) (y *: A).
  Proof.
    move=> Ha Hf. have Hs : ct (fun x => (a x)%:M : 'M[R]_m) y%:M.
      apply: ct_mx => i j d Hd. have := Ha d Hd. apply: ev_imp => x Hx. rewrite !mxE. case: (i == j); first by rewrite !mulr1n. rewrite !mulr0n Rminus_diag_eq // Rabs_R0. lra.
    rewrite -mul_scalar_mx. apply: ct_ext (ct_mul Hs Hf). apply: ev_true => x. by rewrite mul_scalar_mx.
  Qed.
  Lemma ct_unit n (f : T -> 'M[R]_n) A : A \in unitmx -> ct f A -> ev (fun x => f x \in unitmx).
  Proof.
    move=> Hu Hf. set b := mnorm (invmx A). have Hb : (0 <= b)%re := mnorm_ge0 _.
    have H : (0 < / (2 * (b + 1)))%re by apply: Rinv_0_lt_compat; lra. have := Hf _ H. apply: ev_imp => x Hx.
    rewrite -unitmx_tr -row_free_unit -kermx_eq0. apply/eqP. apply/row_matrixP => i. rewrite row0. set v := row i _.
    have Hv : v *m (f x)^T = 0 by rewrite /v -row_mul mulmx_ker row0.
    have E : v^T = - (invmx A *m ((f x - A) *m v^T)).
      have Hv' : f x *m v^T = 0 by rewrite -(trmxK (f x)) -trmx_mul Hv trmx0.
      by rewrite mulmxBl Hv' sub0r mulmxN opprK mulKmx.
    have E2 : (mnorm v^T <= b * (mnorm (f x - A) * mnorm v^T))%re.
      rewrite {1}E mnormN. apply: Rle_trans (mnormM _ _) _. apply: Rmult_le_compat_l => //. exact: mnormM.
    have Hz : (mnorm v^T <= 0)%re.
      have Hq := mnorm_ge0 v^T. have Hd := mnorm_ge0 (f x - A).
      have Hbd : (b * mnorm (f x - A) <= / 2)%re.
        apply: Rle_trans (_ : b * / (2 * (b + 1)) <= _)%re; first by apply: Rmult_le_compat_l.
        have E3 : (/ 2 = (b + 1) * / (2 * (b + 1)))%re by field; lra. rewrite [X in (_ <= X)%re]E3. have := Rlt_le _ _ H. nra.
      move: (mnorm v^T) (mnorm (f x - A)) E2 Hq Hd Hbd => q z E2 Hq Hd Hbd. nra.
    apply/rowP => j. rewrite [RHS]mxE. have := mnorm_entry v^T j 0. rewrite mxE => Hj. have := Rabs_pos (v 0 j) => Hp.
    have H0 : Rabs (v 0 j) = 0%re by apply: Rle_antisym => //; apply: Rle_trans Hj Hz. by case: (Req_dec (v 0 j) 0) => // /Rabs_no_R0.
  Qed.
  Lemma ct_inv n (f : T -> 'M[R]_n) A : A \in unitmx -> ct f A -> ct (fun x => invmx (f x)) (invmx A).
  Proof.
    move=> HA Hf d Hd. set b := mnorm (invmx A). have Hb : (0 <= b)%re := mnorm_ge0 _.
    pose t := Rmin (/ 2) (d / (2 * (b + 1)))%re. have Ht0 : (0 < d / (2 * (b + 1)))%re by apply: Rdiv_lt_0_compat; lra.
    have Ht : (0 < t)%re by apply: Rmin_pos; lra. have Ht1 : (t <= / 2)%re := Rmin_l _ _.
    have Ht2 : (2 * t * (b + 1) <= d)%re.
      have H : (t <= d / (2 * (b + 1)))%re := Rmin_r _ _.
      apply: Rle_trans (_ : d / (2 * (b + 1)) * (2 * (b + 1)) <= _)%re; first by nra. apply: Req_le. field. lra.
    have Hs : (0 < t / (b + 1))%re by apply: Rdiv_lt_0_compat; lra.
    have := ev_and (ct_unit HA Hf) (Hf _ Hs). apply: ev_imp => x [Hu A1].
    have Ex : invmx (f x) - invmx A = invmx (f x) *m (A - f x) *m invmx A.
      rewrite mulmxBr mulmxBl mulVmx // mul1mx -mulmxA mulmxV // mulmx1. done.
    have Ay : (mnorm (invmx (f x)) <= mnorm (invmx (f x) - invmx A) + b)%re.
      have := mnormD (invmx (f x) - invmx A) (invmx A). by rewrite subrK.
    have D0 : (mnorm (A - f x) <= t / (b + 1))%re by rewrite -mnormN opprB.
    have B : (mnorm (invmx (f x) - invmx A) <= mnorm (invmx (f x)) * mnorm (A - f x) * b)%re.
      rewrite {1}Ex. apply: Rle_trans (mnormM _ _) _. apply: Rmult_le_compat_r; first exact: Hb. exact: mnormM.
    have Dx : (mnorm (A - f x) * b <= t)%re.
      apply: Rle_trans (_ : t / (b + 1) * (b + 1) <= _)%re; last by apply: Req_le; field; lra. have := mnorm_ge0 (A - f x). nra.
    have D1 := mnorm_ge0 (A - f x). have D2 := mnorm_ge0 (invmx (f x)). have D3 := mnorm_ge0 (invmx (f x) - invmx A).
    move: (mnorm (invmx (f x) - invmx A)) (mnorm (invmx (f x))) (mnorm (A - f x)) Ay D0 B Dx D1 D2 D3 => y z q Ay D0 B Dx D1 D2 D3.
    have B2 : (y <= z * t)%re by nra. have B3 : (y <= (y + b) * t)%re by nra. nra.
  Qed.

  (** Cholesky's algorithm keeps working near a matrix on which it works, and its result is continuous there. *)
  Definition ch n (A : 'M[R]_n) : 'M[R]_n := if chol A is Some L then L else 0.
  Definition chol_ct n : Prop := forall (f : T -> 'M[R]_n) (A L : 'M[R]_n), ct f A -> chol A = Some L -> ev (fun x => chol (f x) <> None) /\ ct (fun x => ch (f x)) L.
  Lemma ct_chol_step n (f : T -> 'M[R]_(1 + n)) (A L : 'M[R]_(1 + n)) : chol_ct n -> ct f A -> chol_step (@chol n) A = Some L ->
    ev (fun x => chol_step (@chol n) (f x) <> None) /\ ct (fun x => if chol_step (@chol n) (f x) is Some L then L else 0) L.
  Proof.
    move=> IH Hf. rewrite /chol_step /=. case: (Rlt_dec _ _) => // Ha. set a := A _ _ in Ha *.
    case E: (chol _) => [L'|] // [<-].
    have Ca : ctR (fun x => f x (lshift n 0) (lshift n 0)) a by apply: ct_entry.
    have Cs : ctR (fun x => sqrt (f x (lshift n 0) (lshift n 0))) (sqrt a).
      exact: (ctR_comp (g := sqrt) Ca (continuity_pt_sqrt _ (Rlt_le _ _ Ha))).
    have Ci : ctR (fun x => Rinv (sqrt (f x (lshift n 0) (lshift n 0)))) (/ sqrt a)%re.
      apply: (ctR_comp (g := Rinv) Cs). apply: (continuity_pt_inv id); first exact: (derivable_continuous_pt _ _ (derivable_pt_id _)). apply: Rgt_not_eq. exact: sqrt_lt_R0.
    have Cd : ct (fun x => dlsubmx (f x : 'M_(1 + n))) (dlsubmx (A : 'M_(1 + n))).
      apply: ct_mx => i j. have := ct_entry (rshift 1 i) (lshift n j) Hf. move=> H d Hd. have := H d Hd. apply: ev_imp => x. by rewrite !mxE.
    have Cr : ct (fun x => drsubmx (f x : 'M_(1 + n))) (drsubmx (A : 'M_(1 + n))).
      apply: ct_mx => i j. have := ct_entry (rshift 1 i) (rshift 1 j) Hf. move=> H d Hd. have := H d Hd. apply: ev_imp => x. by rewrite !mxE.
    have Cv := ct_scale Ci Cd. have Cm := ct_add Cr (ct_opp (ct_mul Cv (ct_tr Cv))).
    have [I1 I2] := IH _ _ _ Cm E. have Hp := ctR_pos Ca Ha. split.
      have := ev_and I1 Hp. apply: ev_imp => x [H1 H2]. case: (Rlt_dec _ _) => // [Hy|Hn] /=; last by exfalso; clear -H2 Ha Hn; apply: Hn; toR; lra. by case: (chol _) H1.
    apply: (ct_ext (f := fun x => block_mx ((sqrt (f x (lshift n 0) (lshift n 0)))%:M : 'M_1) 0 (Rinv (sqrt (f x (lshift n 0) (lshift n 0))) *: dlsubmx (f x : 'M_(1 + n)))
        (ch (drsubmx (f x : 'M_(1 + n)) - (Rinv (sqrt (f x (lshift n 0) (lshift n 0))) *: dlsubmx (f x : 'M_(1 + n))) *m (Rinv (sqrt (f x (lshift n 0) (lshift n 0))) *: dlsubmx (f x : 'M_(1 + n)))^T)))).
      have := ev_and I1 Hp. apply: ev_imp => x [H1 H2]. rewrite /ch /=. case: (Rlt_dec _ _) => // [Hy|Hn] /=; last by exfalso; clear -H2 Ha Hn; apply: Hn; toR; lra. by case: (chol _) H1.
    apply: ct_mx => i j. case: (split_ordP i) => i' ->; case: (split_ordP j) => j' ->.
    - rewrite block_mxEul. move=> d Hd. have := Cs d Hd. apply: ev_imp => x Hx. by rewrite block_mxEul !ord1 !mxE eqxx !mulr1n.
    - rewrite block_mxEur. move=> d Hd. apply: ev_true => x. rewrite block_mxEur mxE Rminus_diag_eq // Rabs_R0. lra.
    - rewrite block_mxEdl. have := ct_entry i' j' Cv. move=> H d Hd. have := H d Hd. apply: ev_imp => x. by rewrite block_mxEdl.
    - rewrite block_mxEdr. have := ct_entry i' j' I2. move=> H d Hd. have := H d Hd. apply: ev_imp => x. by rewrite block_mxEdr.
  Qed.
  Lemma ct_chol n : chol_ct n.
  Proof.
    elim: n => [|n IH] f A L Hf HA.
      split; first by apply: ev_true.
      by apply: ct_mx => -[].
    exact: ct_chol_step IH Hf HA.
  Qed.
End Ct.
