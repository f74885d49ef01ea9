(** * ReturnCombinator.fit: causality, units of the predictors, linearity in the returns. *)
From Coq Require Import Reals Lra ZArith String List Lia.
Set Warnings "-notation-overridden,-ambiguous-paths".
From mathcomp Require Import all_ssreflect all_algebra.
From Verif Require Import RStruct MatR Num Py ListFacts Spec Combination CombPerm CombFacts Trader TraderOpt TraderBt TraderMain BacktestProps RetComb SpecRet RetEwm RetRidge RetFit RetMain.
Set Implicit Arguments.
Unset Strict Implicit.
Unset Printing Implicit Defensive.
Import GRing.Theory.
Local Open Scope ring_scope.
Delimit Scope R_scope with re.
Delimit Scope Z_scope with z.

(** related results *)
Definition res_rel A B (P : A -> B -> Prop) (r : res A) (r' : res B) : Prop :=
  match r, r' with Ok a, Ok b => P a b | Raise e, Raise e' => e = e' | _, _ => False end.
Lemma mapM_rel X A B (P : A -> B -> X -> Prop) (f : X -> res A) (g : X -> res B) (l : seq X) (a0 : A) (b0 : B) :
  (forall x, List.In x l -> res_rel (fun a b => P a b x) (f x) (g x)) ->
  res_rel (fun r r' => size r = size l /\ size r' = size l /\ forall i x0, (i < size l)%N -> P (nth a0 r i) (nth b0 r' i) (nth x0 l i)) (mapM f l) (mapM g l).
Proof.
  elim: l => [|x l IH] H; first by []. have := H x (or_introl erefl). rewrite /=. case: (f x) => [a|e]; case: (g x) => [b|e'] //= Hab.
  have := IH (fun y Hy => H y (or_intror Hy)). case: (mapM f l) => [r|e]; case: (mapM g l) => [r'|e'] //= [Hs [Hs' Hn]].
  rewrite Hs Hs'. split=> //. split=> // [] [|i] x0 Hi //=. exact: Hn.
Qed.

Lemma rel_imp A B (P Q : A -> B -> Prop) r r' : res_rel P r r' -> (forall a b, P a b -> Q a b) -> res_rel Q r r'.
Proof. case: r => [a|e]; case: r' => [b|e'] //= H HPQ. exact: HPQ. Qed.
(** the same over 0 .. n-1, or any iota *)
Lemma mapM_rel_iota A B (P : A -> B -> nat -> Prop) (f : nat -> res A) (g : nat -> res B) a n (a0 : A) (b0 : B) :
  (forall i, (a <= i < a + n)%N -> res_rel (fun x y => P x y i) (f i) (g i)) ->
  res_rel (fun r r' => size r = n /\ size r' = n /\ forall i, (i < n)%N -> P (nth a0 r i) (nth b0 r' i) (a + i)%N) (mapM f (iota a n)) (mapM g (iota a n)).
Proof.
  move=> H. apply: (rel_imp (@mapM_rel _ _ _ P f g (iota a n) a0 b0 _)).
  - move=> x /(In_nthP 0%N) [j]. rewrite size_iota => Hj ->. apply: H. rewrite nth_iota //. lia.
  - move=> r r'. rewrite size_iota => [] [-> [-> Hn]]. split=> //. split=> // i Hi. have := Hn i 0%N Hi. by rewrite nth_iota.
Qed.

Section Inv.
  Context (K : nat).
  Notation vec := 'cV[R]_K.
  Notation nocol := (""%string, [::] : seq R).
  Notation nopred := ([::] : seq Z, [::] : seq vec).

  Lemma days_ext A (f g : nat -> A) t m : (m <= t)%N -> (forall s, (t - m <= s < t)%N -> f s = g s) -> days f t m = days g t m.
  Proof. move=> Hm H. apply/eq_in_map => s. rewrite mem_iota => Hs. apply: H. lia. Qed.
  Lemma ms_ext (x x' : nat -> vec) t : (forall s, (s < t)%N -> x s = x' s) -> scale_vec x t = scale_vec x' t.
  Proof. move=> H. apply/colP => k. rewrite !mxE /mean_square. congr (_ / _)%re. apply: eq_bigr => s _. by rewrite H. Qed.

  Theorem fit_causal idx idx' cols cols' times times' (preds preds' : seq (seq Z * seq vec)) m alpha out out' :
    good_data idx cols times preds -> good_data idx' cols' times' preds' -> (0 < m)%N ->
    fit idx cols preds m alpha = Ok out -> fit idx' cols' preds' m alpha = Ok out' ->
    forall i i' t, (i < size cols)%N -> (i' < size cols')%N -> (m <= t)%N -> (t < size times)%N -> (t < size times')%N ->
    (forall s, (t - m <= s < t)%N -> return_at idx (col_at cols i) (nth Z0 times s) = return_at idx' (col_at cols' i') (nth Z0 times' s)) ->
    (forall s, (s < t)%N -> pred_at preds i s = pred_at preds' i' s) ->
    nth 0 (nth [::] out.2 i) (t - m) = nth 0 (nth [::] out'.2 i') (t - m) /\
    (pred_at preds i t = pred_at preds' i' t -> nth 0 (col_at out.1.2 i) (t - m) = nth 0 (col_at out'.1.2 i') (t - m)).
  Proof.
    move=> Hg Hg' Hm Hf Hf' i i' t Hi Hi' H1 H2 H2' Hy Hx. have H12 : (m <= t < size times)%N by rewrite H1. have H12' : (m <= t < size times')%N by rewrite H1.
    have Hw := fit_weights Hg Hm Hf Hi H12. have Hw' := fit_weights Hg' Hm Hf' Hi' H12'.
    have E : nth 0 (nth [::] out.2 i) (t - m) = nth 0 (nth [::] out'.2 i') (t - m).
    { move: Hw. rewrite (days_ext H1 Hy) (ms_ext Hx). rewrite (@days_ext _ (pred_at preds i) (pred_at preds' i')) //; last by move=> s /andP [_ /Hx].
      by rewrite Hw' => [] []. }
    split=> // Et. have [_ [_ [_ Ho]]] := fit_cells Hg Hm Hf. have [_ [_ [_ Ho']]] := fit_cells Hg' Hm Hf'.
    have [_ [-> _]] := Ho _ _ Hi H12. have [_ [-> _]] := Ho' _ _ Hi' H12'. by rewrite Et E.
  Qed.

  (** ** units *)
  Definition unscale (d : 'I_K -> R) (w : vec) : vec := \col_k (w k ord0 / d k)%re.
  Lemma ms_scale (d : 'I_K -> R) (x x' : nat -> vec) t k : (forall s, (s < t)%N -> x' s k 0 = d k * x s k 0) -> mean_square x' t k = d k * d k * mean_square x t k.
  Proof.
    move=> H. rewrite /mean_square. have -> : \sum_(s < t) (250 / 251)%re ^+ (t.-1 - s) * (x' s k 0 * x' s k 0) = d k * d k * \sum_(s < t) (250 / 251)%re ^+ (t.-1 - s) * (x s k 0 * x s k 0).
      rewrite big_distrr /=. apply: eq_bigr => s _. rewrite H //. move: (x s k 0) (_ ^+ _) (d k) => a b c. Rring.
    hide_sums. rewrite /Rdiv. Rring.
  Qed.
  Lemma gw_scale (d : 'I_K -> R) y (x x' : nat -> vec) t m alpha : (forall k, d k <> 0) -> (0 < m)%N -> (m <= t)%N ->
    (forall s k, (s < t)%N -> x' s k 0 = d k * x s k 0) ->
    res_rel (fun w w' => w' = unscale d w) (get_weights (days y t m) (days x t m) (scale_vec x t) alpha) (get_weights (days y t m) (days x' t m) (scale_vec x' t) alpha).
  Proof.
    move=> Hd H0 Hm Hx. rewrite !gwE. pose D : 'M[R]_K := diag_mx (\row_k d k). pose Di : 'M[R]_K := diag_mx (\row_k (/ d k)%re).
    have HDi : Di *m D = 1%:M.
    { apply/matrixP => i j. rewrite mul_diag_mx !mxE. case: eqP => [->|_]; rewrite ?mulr1n ?mulr0n ?mulr0 //. toR. exact: Rinv_l. }
    have HDi' := mulmx1C HDi.
    have Ex s : (s < t)%N -> x' s = D *m x s. { move=> Hs. apply/colP => k. by rewrite mul_diag_mx !mxE Hx. }
    have EA : Amx (obs_of y x' t m) alpha (scale_vec x' t) = D *m Amx (obs_of y x t m) alpha (scale_vec x t) *m D.
    { rewrite /Amx !obs_sum // mulmxDr mulmxDl mulmx_sumr mulmx_suml. congr (_ + _).
      - apply: eq_bigr => j _ /=. rewrite -scalemxAr -scalemxAl. congr (_ *: _). rewrite Ex; last lia. by rewrite trmx_mul tr_diag_mx !mulmxA.
      - rewrite -scalemxAr -scalemxAl. congr (_ *: _). apply/matrixP => i j. rewrite mul_mx_diag mul_diag_mx !mxE. case: eqP => [->|_]; rewrite ?mulr1n ?mulr0n; last by rewrite mulr0 mul0r.
        rewrite (ms_scale (d := d) (x := x)) => [|s Hs]; last exact: Hx. move: (mean_square _ _ _) (d j) => a b. Rring. }
    have Er : rhs (obs_of y x' t m) = D *m rhs (obs_of y x t m).
    { rewrite /rhs !obs_sum // mulmx_sumr. apply: eq_bigr => j _ /=. rewrite -scalemxAr Ex //. lia. }
    have HuD : D \in unitmx by case/mulmx1_unit: HDi. rewrite EA Er !unitmx_mul HuD /= andbT. case: ifP => Hu //=.
    set A := Amx _ _ _ in Hu *. set r := rhs _. have Hu2 : D *m A *m D \in unitmx by rewrite !unitmx_mul HuD Hu.
    have -> : D *m r = D *m A *m D *m (Di *m (invmx A *m r)).
      by rewrite -[D *m A *m D *m _]mulmxA [D *m (Di *m _)]mulmxA HDi' mul1mx -mulmxA mulKVmx.
    rewrite mulKmx //.
    apply/colP => k. rewrite mul_diag_mx !mxE. by rewrite mulrC.
  Qed.
  Lemma rescaled_good d idx cols times (preds preds' : seq (seq Z * seq vec)) : rescaled d preds preds' -> good_data idx cols times preds -> good_data idx cols times preds'.
  Proof.
    move=> [Hs Hr] [Hi [Ht [Hc [Hp [Hn [H0 Hsub]]]]]]. split=> //. split=> //. split=> //. split.
    { move=> p /(In_nthP nopred) [i]. rewrite Hs => Hi' ->. have [-> [-> _]] := Hr _ Hi'. apply: Hp. exact: In_nth_size. }
    split; first by rewrite Hs. split=> // E. apply: H0. apply: size0nil. by rewrite -Hs E.
  Qed.
  Theorem fit_units d idx cols times (preds preds' : seq (seq Z * seq vec)) m alpha :
    good_data idx cols times preds -> (0 < m)%N -> (forall i k, (i < size preds)%N -> d i k <> 0) -> rescaled d preds preds' ->
    res_rel (fun o o' => o'.1 = o.1 /\ size o'.2 = size o.2 /\ forall i j, (i < size preds)%N -> (j < size times - m)%N ->
               nth 0 (nth [::] o'.2 i) j = unscale (d i) (nth 0 (nth [::] o.2 i) j))
            (fit idx cols preds m alpha) (fit idx cols preds' m alpha).
  Proof.
    move=> Hg Hm Hd Hr. have Hg' := rescaled_good Hr Hg. rewrite (fit_eq _ Hg Hm) (fit_eq _ Hg' Hm). case: (Hg) => Hi [Ht [Hc [Hp [Hn [H0 Hsub]]]]]. case: (Hg') => _ [_ [_ [Hp' [Hn' _]]]].
    have Hcell i t : (i < size cols)%N -> (m <= t < size times)%N -> res_rel (fun w w' => w' = unscale (d i) w)
      (cell idx (col_at cols i) times (nth nopred preds i).2 m alpha t) (cell idx (col_at cols i) times (nth nopred preds' i).2 m alpha t).
    { move=> Hi1 /andP [H1 H2]. have Hc' : size (col_at cols i) = size idx by apply: Hc; exact: In_nth_size.
      have Hx : size (nth nopred preds i).2 = size times by rewrite Hn in Hi1; have [] := Hp _ (In_nth_size nopred Hi1).
      have Hx' : size (nth nopred preds' i).2 = size times by rewrite Hn' in Hi1; have [] := Hp' _ (In_nth_size nopred Hi1).
      have [[Eb ->]|[Eb ->]] := cell_cases alpha Hi Ht Hc' Hx Hsub Hm H1 H2; have [[Eb' ->]|[Eb' ->]] := cell_cases alpha Hi Ht Hc' Hx' Hsub Hm H1 H2 => //.
      rewrite Hn in Hi1. apply: gw_scale => //; first by move=> k; exact: Hd. move=> s k Hs. have [_ Hr2] := Hr. have [_ [_ Hr3]] := Hr2 _ Hi1. apply: Hr3. rewrite Hx. exact: ltn_trans H2. }
    have Hrow t : (m <= t < size times)%N -> res_rel (fun r r' => forall i, (i < size cols)%N -> nth 0 r' i = unscale (d i) (nth 0 r i))
      (mapM (fun i => cell idx (col_at cols i) times (nth nopred preds i).2 m alpha t) (iota 0 (size cols)))
      (mapM (fun i => cell idx (col_at cols i) times (nth nopred preds' i).2 m alpha t) (iota 0 (size cols))).
    { move=> Ht'. apply: (rel_imp (mapM_rel_iota (P := fun w w' i => w' = unscale (d i) w) 0 0 _)); first by move=> i Hi1; exact: Hcell.
      by move=> r r' [_ [_ H]] i /H; rewrite add0n. }
    have Hrel : res_rel (fun W W' => size W = (size times - m)%N /\ size W' = (size times - m)%N /\
        forall j, (j < size times - m)%N -> forall i, (i < size cols)%N -> nth 0 (nth [::] W' j) i = unscale (d i) (nth 0 (nth [::] W j) i))
        (cells idx cols times preds m alpha) (cells idx cols times preds' m alpha).
    { apply: (mapM_rel_iota (P := fun r r' _ => forall i, (i < size cols)%N -> nth 0 r' i = unscale (d i) (nth 0 r i)) [::] [::]) => t Ht'. apply: Hrow. lia. }
    case: (cells _ _ _ preds _ _) Hrel => [W|e]; case: (cells _ _ _ preds' _ _) => [W'|e'] //= [Hs [Hs' HW]]. rewrite -Hn.
    split; last split; last by move=> i j Hi1 Hj; rewrite !(nth_map 0%N) ?size_iota // !nth_iota // !(nth_map [::]) ?Hs ?Hs' // HW.
    - congr (_, _). apply/eq_in_map => i. rewrite mem_iota add0n => Hi1. congr (_, _). rewrite Hs Hs'. apply/eq_in_map => j. rewrite mem_iota add0n => Hj.
      rewrite HW //. apply: eq_bigr => k _. rewrite mxE. have Hi2 := Hi1. rewrite /= Hn in Hi2. have [_ Hr2] := Hr. have [_ [_ Hr3]] := Hr2 _ Hi2.
      rewrite Hr3; last by (have [_ ->] := Hp _ (In_nth_size nopred Hi2); lia). have := Hd i k Hi2. move: (d i k) (fun_of_matrix (pred_at _ _ _) _ _) (fun_of_matrix (nth _ _ _) _ _) => a b c Ha. toR. eqR. field. exact: Ha.
    - by rewrite !size_map.
  Qed.

  Theorem units_main d idx cols times (preds preds' : seq (seq Z * seq vec)) m alpha :
    good_data idx cols times preds -> (0 < m)%N -> (forall i k, (i < size preds)%N -> d i k <> 0) -> rescaled d preds preds' ->
    (forall o, fit idx cols preds m alpha = Ok o -> exists o', fit idx cols preds' m alpha = Ok o' /\ o'.1 = o.1 /\
       forall i j k, (i < size preds)%N -> (j < size times - m)%N -> d i k * nth 0 (nth [::] o'.2 i) j k 0 = nth 0 (nth [::] o.2 i) j k 0) /\
    (forall e, fit idx cols preds m alpha = Raise e -> fit idx cols preds' m alpha = Raise e).
  Proof.
    move=> Hg Hm Hd Hr. have := fit_units alpha Hg Hm Hd Hr. case: (fit _ _ preds _ _) => [o|e]; case: (fit _ _ preds' _ _) => [o'|e'] //=.
    - move=> [E1 [_ H]]. split=> // o1 [] <-. exists o'. split=> //. split=> // i j k Hi Hj. rewrite H // mxE. have := Hd i k Hi. move: (d i k) (fun_of_matrix _ _ _) => a b Ha. toR. eqR. field. exact: Ha.
    - move=> ->. by split.
  Qed.

  (** ** linear in the returns *)
  Lemma shape_good idx cols cols' times (preds : seq (seq Z * seq vec)) : same_shape idx cols cols' -> good_data idx cols times preds -> good_data idx cols' times preds.
  Proof. move=> [Hs Hc'] [Hi [Ht [Hc [Hp [Hn H]]]]]. split=> //. split=> //. split=> //. split=> //. by rewrite Hs. Qed.
  Lemma shape_cell idx cols cols' times (preds : seq (seq Z * seq vec)) m alpha i t : same_shape idx cols cols' -> good_data idx cols times preds -> (0 < m)%N ->
    (i < size cols)%N -> (m <= t < size times)%N ->
    res_rel (fun _ _ => True) (cell idx (col_at cols i) times (nth nopred preds i).2 m alpha t) (cell idx (col_at cols' i) times (nth nopred preds i).2 m alpha t).
  Proof.
    move=> Hsh Hg Hm Hi1 /andP [H1 H2]. have [_ [_ [Hc2 _]]] := shape_good Hsh Hg. case: Hg => Hi [Ht [Hc [Hp [Hn [H0 Hsub]]]]].
    have Hc1 : size (col_at cols i) = size idx by apply: Hc; exact: In_nth_size.
    have Hc1' : size (col_at cols' i) = size idx by apply: Hc2; apply: In_nth_size; have [-> _] := Hsh.
    have Hx : size (nth nopred preds i).2 = size times by rewrite Hn in Hi1; have [] := Hp _ (In_nth_size nopred Hi1).
    have [[Eb ->]|[Eb ->]] := cell_cases alpha Hi Ht Hc1 Hx Hsub Hm H1 H2; have [[Eb' ->]|[Eb' ->]] := cell_cases alpha Hi Ht Hc1' Hx Hsub Hm H1 H2 => //.
    rewrite !gwE /Amx !obs_sum //. by case: ifP.
  Qed.
  Theorem fit_shape idx cols cols' times (preds : seq (seq Z * seq vec)) m alpha : good_data idx cols times preds -> (0 < m)%N -> same_shape idx cols cols' ->
    res_rel (fun _ _ => True) (fit idx cols preds m alpha) (fit idx cols' preds m alpha).
  Proof.
    move=> Hg Hm Hsh. have Hg' := shape_good Hsh Hg. rewrite (fit_eq _ Hg Hm) (fit_eq _ Hg' Hm). have [Hs _] := Hsh.
    have Hrel : res_rel (fun _ _ => True) (cells idx cols times preds m alpha) (cells idx cols' times preds m alpha).
    { rewrite /cells Hs. refine (rel_imp (mapM_rel_iota (P := fun _ _ _ => True) [::] [::] _) _) => // t Ht'.
      refine (rel_imp (mapM_rel_iota (P := fun _ _ _ => True) 0 0 _) _) => // i Hi'. apply: shape_cell => //. lia. }
    by case: (cells _ cols _ _ _ _) Hrel => [W|e]; case: (cells _ cols' _ _ _ _).
  Qed.
  Lemma mixed_return a b idx cols1 cols2 cols i u : mixed a b cols1 cols2 cols -> increasing idx -> List.In u idx ->
    size (col_at cols i) = size idx -> size (col_at cols1 i) = size idx -> size (col_at cols2 i) = size idx ->
    return_at idx (col_at cols i) u = a * return_at idx (col_at cols1 i) u + b * return_at idx (col_at cols2 i) u.
  Proof. move=> H Hi /(In_nthP Z0) [j Hj ->] H1 H2 H3. rewrite !nth_return //. Qed.
  Theorem fit_linear a b idx cols1 cols2 cols times (preds : seq (seq Z * seq vec)) m alpha o1 o2 o :
    good_data idx cols1 times preds -> (0 < m)%N -> same_shape idx cols1 cols2 -> same_shape idx cols1 cols -> mixed a b cols1 cols2 cols ->
    fit idx cols1 preds m alpha = Ok o1 -> fit idx cols2 preds m alpha = Ok o2 -> fit idx cols preds m alpha = Ok o ->
    forall i j, (i < size cols1)%N -> (j < size times - m)%N ->
      nth 0 (nth [::] o.2 i) j = a *: nth 0 (nth [::] o1.2 i) j + b *: nth 0 (nth [::] o2.2 i) j /\
      nth 0 (col_at o.1.2 i) j = a * nth 0 (col_at o1.1.2 i) j + b * nth 0 (col_at o2.1.2 i) j.
  Proof.
    move=> Hg1 Hm Hs2 Hs Hmix F1 F2 F i j Hi1 Hj. have Hg2 := shape_good Hs2 Hg1. have Hg := shape_good Hs Hg1.
    have Hi2 : (i < size cols2)%N by case: Hs2 => ->. have Hi0 : (i < size cols)%N by case: Hs => ->. have Ht : (m <= m + j < size times)%N by lia.
    have W1 := fit_weights Hg1 Hm F1 Hi1 Ht. have W2 := fit_weights Hg2 Hm F2 Hi2 Ht. have W := fit_weights Hg Hm F Hi0 Ht. rewrite addKn in W1 W2 W.
    have [_ [_ [_ G1]]] := fit_cells Hg1 Hm F1. have {G1} [_ [G1 _]] := G1 _ _ Hi1 Ht.
    have [_ [_ [_ G2]]] := fit_cells Hg2 Hm F2. have {G2} [_ [G2 _]] := G2 _ _ Hi2 Ht.
    have [_ [_ [_ G0]]] := fit_cells Hg Hm F. have {G0} [_ [G0 _]] := G0 _ _ Hi0 Ht. rewrite addKn in G1 G2 G0.
    have E : nth 0 (nth [::] o.2 i) j = a *: nth 0 (nth [::] o1.2 i) j + b *: nth 0 (nth [::] o2.2 i) j.
    { move: W1 W2 W. rewrite !gwE /Amx !obs_sum ?leq_addr //. case: ifP => // Hu [] <- [] <- [] <-. rewrite !scalemxAr -mulmxDr. congr (_ *m _).
      rewrite /rhs !obs_sum ?leq_addr // !scaler_sumr -big_split /=. apply: eq_bigr => q _. rewrite !scalerA -scalerDl. congr (_ *: _).
      rewrite (mixed_return Hmix); try by (case: Hg1 => []).
      - move: (share _ _) (return_at _ _ _) (return_at _ _ _) => r r1 r2. Rring.
      - case: Hg1 => _ [_ [_ [_ [_ [_ Hsub]]]]]. apply: Hsub. apply: In_nth_size. lia.
      - case: Hg => _ [_ [Hc _]]. apply: Hc. exact: In_nth_size.
      - case: Hg1 => _ [_ [Hc _]]. apply: Hc. exact: In_nth_size.
      - case: Hg2 => _ [_ [Hc _]]. apply: Hc. exact: In_nth_size. }
    split=> //. rewrite G0 G1 G2 E /forecast !big_distrr -big_split /=. apply: eq_bigr => k _. rewrite addE !scE. move: (fun_of_matrix _ _ _) (fun_of_matrix _ _ _) (fun_of_matrix _ _ _) => p q r. Rring.
  Qed.
  Theorem linear_main a b idx cols1 cols2 cols times (preds : seq (seq Z * seq vec)) m alpha o1 :
    good_data idx cols1 times preds -> (0 < m)%N -> same_shape idx cols1 cols2 -> same_shape idx cols1 cols -> mixed a b cols1 cols2 cols ->
    fit idx cols1 preds m alpha = Ok o1 ->
    exists o2 o, fit idx cols2 preds m alpha = Ok o2 /\ fit idx cols preds m alpha = Ok o /\
    forall i j, (i < size cols1)%N -> (j < size times - m)%N ->
      nth 0 (nth [::] o.2 i) j = a *: nth 0 (nth [::] o1.2 i) j + b *: nth 0 (nth [::] o2.2 i) j /\
      nth 0 (col_at o.1.2 i) j = a * nth 0 (col_at o1.1.2 i) j + b * nth 0 (col_at o2.1.2 i) j.
  Proof.
    move=> Hg Hm Hs2 Hs Hmix F1. have := fit_shape alpha Hg Hm Hs2. have := fit_shape alpha Hg Hm Hs. rewrite F1.
    case F : (fit _ cols _ _ _) => [o|//] _. case F2 : (fit _ cols2 _ _ _) => [o2|//] _. exists o2, o. split=> //. split=> //. exact: (fit_linear Hg Hm Hs2 Hs Hmix F1 F2 F).
  Qed.
  Theorem shape_errors idx cols cols' times (preds : seq (seq Z * seq vec)) m alpha e :
    good_data idx cols times preds -> (0 < m)%N -> same_shape idx cols cols' -> fit idx cols preds m alpha = Raise e -> fit idx cols' preds m alpha = Raise e.
  Proof. move=> Hg Hm Hs F. have := fit_shape alpha Hg Hm Hs. rewrite F. by case: (fit _ cols' _ _ _) => [//|e'] ->. Qed.

  (** ** malformed input *)
  Theorem fit_errors idx cols (p0 : seq Z * seq vec) l1 p l2 m alpha :
    (forall q, List.In q l1 -> q.1 = p0.1) ->
    fit (K := K) idx cols [::] m alpha = Raise IndexError /\
    (size p.1 <> size p0.1 -> fit idx cols (p0 :: l1 ++ p :: l2) m alpha = Raise ValueError) /\
    (size p.1 = size p0.1 -> p.1 <> p0.1 -> fit idx cols (p0 :: l1 ++ p :: l2) m alpha = Raise AssertionError) /\
    (forall t, List.In t p0.1 -> ~ List.In t idx -> fit idx cols (p0 :: l1) m alpha = Raise AssertionError).
  Proof.
    move=> Hl. split=> //. pose f := fun p : seq Z * seq vec => if size p0.1 != size p.1 then Raise ValueError else if seqb_Z p0.1 p.1 then Ok tt else Raise AssertionError.
    have Hok q : q.1 = p0.1 -> f q = Ok tt by move=> E; rewrite /f E eqxx (proj2 (seqb_ZP _ _)).
    have Hap l : mapM f (l1 ++ l) = match mapM f l with Ok r => Ok (map (fun _ => tt) l1 ++ r) | Raise e => Raise e end.
    { elim: l1 Hl => [|q l1 IH] Hl /=; first by case: (mapM f l). rewrite Hok; last by apply: Hl; left. rewrite /= IH; last by move=> q' Hq; apply: Hl; right. by case: (mapM f l). }
    split; last split.
    - move=> Hs. rewrite /fit -/f /= (Hok p0) //= Hap /= {1}/f. case: eqP => [E|//]. by case: Hs.
    - move=> Hs Hne. rewrite /fit -/f /= (Hok p0) //= Hap /= {1}/f Hs eqxx /=. case E : (seqb_Z _ _) => //. by move/seqb_ZP: E => E; case: Hne.
    - move=> t Ht Hn. rewrite /fit -/f /= (Hok p0) //=. have := Hap [::]. rewrite cats0 => -> /=. case: ifP => // /negbT. rewrite negbK => /List.forallb_forall /(_ _ Ht) /mem_ZP. by [].
  Qed.
End Inv.
