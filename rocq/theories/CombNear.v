(** * Nearly optimal weights give nearly the same forecasts (C130). *)
From Coq Require Import Reals Lra ZArith String List Lia Psatz.
Set Warnings "-notation-overridden,-ambiguous-paths".
From mathcomp Require Import all_ssreflect all_algebra.
From Verif Require Import RStruct MatR Num Py ListFacts Combination SpecComb CombFacts CombBuild CombSolve CombRun CombProps CombItems RealLA SpecCombR CombReal CombObj CombOpt CombExact SpecNear CombBest.
Set Implicit Arguments.
Unset Strict Implicit.
Unset Printing Implicit Defensive.
Import GRing.Theory.
Local Open Scope ring_scope.
Delimit Scope R_scope with re.

(** The sum of the absolute entries: a submultiplicative norm. *)
Definition mnorm m n (A : 'M[R]_(m, n)) : R := \sum_i \sum_j Rabs (A i j).
Lemma sum_abs (I : finType) (F : I -> R) : (Rabs (\sum_i F i) <= \sum_i Rabs (F i))%re.
Proof.
  elim/big_rec2: _ => [|i y x _ H]; first by rewrite Rabs_R0; apply: Rle_refl.
  apply: Rle_trans (Rabs_triang _ _) _. apply: Rplus_le_compat_l. exact: H.
Qed.
Lemma sum_ge_term (I : finType) (F : I -> R) i : (forall i, (0 <= F i)%re) -> (F i <= \sum_i F i)%re.
Proof.
  move=> H. rewrite (bigD1 i) //=. have H1 : (0 <= \sum_(j | j != i) F j)%re by apply: sumR_ge0 => j _.
  move: (\sum_(j | j != i) F j)%R H1 => x Hx. change (F i <= F i + x)%re. lra.
Qed.
Lemma mnorm_ge0 m n (A : 'M[R]_(m, n)) : (0 <= mnorm A)%re.
Proof. apply: sumR_ge0 => i _. apply: sumR_ge0 => j _. exact: Rabs_pos. Qed.
Lemma mnorm_entry m n (A : 'M[R]_(m, n)) i j : (Rabs (A i j) <= mnorm A)%re.
Proof.
  rewrite /mnorm. apply: Rle_trans (sum_ge_term (F := fun j => Rabs (A i j)) j _) _; first by move=> j0; exact: Rabs_pos.
  apply: (sum_ge_term (F := fun i => \sum_j Rabs (A i j))) => i0. apply: sumR_ge0 => j0 _. exact: Rabs_pos.
Qed.
Lemma mnormD m n (A B : 'M[R]_(m, n)) : (mnorm (A + B) <= mnorm A + mnorm B)%re.
Proof.
  rewrite /mnorm. apply: Rle_trans (_ : (\sum_i \sum_j (Rabs (A i j) + Rabs (B i j))%re)%R <= _)%re.
    apply: sumR_le => i _. apply: sumR_le => j _. rewrite mxE. exact: Rabs_triang.
  apply: Req_le. change ((\sum_i \sum_j (Rabs (A i j) + Rabs (B i j))%re)%R = (\sum_i \sum_j Rabs (A i j)) + (\sum_i \sum_j Rabs (B i j))).
  rewrite -big_split /=. apply: eq_bigr => i _. by rewrite -big_split.
Qed.
Lemma mnormN m n (A : 'M[R]_(m, n)) : mnorm (- A) = mnorm A.
Proof. apply: eq_bigr => i _. apply: eq_bigr => j _. by rewrite mxE -(Rabs_Ropp (A i j)). Qed.
Lemma mnormT m n (A : 'M[R]_(m, n)) : mnorm A^T = mnorm A.
Proof. rewrite /mnorm exchange_big /=. apply: eq_bigr => i _. apply: eq_bigr => j _. by rewrite mxE. Qed.
Lemma mnormZ m n a (A : 'M[R]_(m, n)) : mnorm (a *: A) = (Rabs a * mnorm A)%re.
Proof.
  rewrite /mnorm. change (\sum_i \sum_j Rabs ((a *: A) i j) = Rabs a * (\sum_i \sum_j Rabs (A i j))). rewrite big_distrr /=. apply: eq_bigr => i _. rewrite big_distrr /=. apply: eq_bigr => j _.
  rewrite mxE. exact: Rabs_mult.
Qed.
Lemma mnormM m n p (A : 'M[R]_(m, n)) (B : 'M[R]_(n, p)) : (mnorm (A *m B) <= mnorm A * mnorm B)%re.
Proof.
  apply: Rle_trans (_ : (\sum_i \sum_k \sum_j Rabs (A i j) * Rabs (B j k))%R <= _)%re.
    apply: sumR_le => i _. apply: sumR_le => k _. rewrite mxE. apply: Rle_trans (sum_abs _) _. apply: Req_le. apply: eq_bigr => j _. exact: Rabs_mult.
  have -> : (mnorm A * mnorm B)%re = \sum_i \sum_j Rabs (A i j) * mnorm B.
    change ((\sum_i \sum_j Rabs (A i j)) * mnorm B = \sum_i \sum_j Rabs (A i j) * mnorm B). rewrite big_distrl /=. apply: eq_bigr => i _. by rewrite big_distrl.
  apply: sumR_le => i _. rewrite exchange_big /=. apply: sumR_le => j _. rewrite -big_distrr /=. apply: Rmult_le_compat_l; first exact: Rabs_pos.
  apply: (sum_ge_term (F := fun i => \sum_j Rabs (B i j))) => i0. apply: sumR_ge0 => j0 _. exact: Rabs_pos.
Qed.

(** Functions of the weights that are continuous at w0 (over feasible weights). *)
Section Cont.
  Context (K : nat) (w0 : list R).
  Definition close (e : R) (w : list R) : Prop := forall k, (k < K)%N -> (Rabs (nth 0 w k - nth 0 w0 k) <= e)%re.
  Definition cont m n (f : list R -> 'M[R]_(m, n)) : Prop :=
    forall d, (0 < d)%re -> exists e, (0 < e)%re /\ forall w, feasible K w -> close e w -> (mnorm (f w - f w0) <= d)%re.

  Lemma close_le e e' w : (e <= e')%re -> close e w -> close e' w.
  Proof. move=> H Hc k Hk. have := Hc k Hk. lra. Qed.
  Lemma mnorm_sum m n (F : 'I_K -> 'M[R]_(m, n)) : (mnorm (\sum_k F k) <= \sum_k mnorm (F k))%re.
  Proof.
    elim/big_rec2: _ => [|i y x _ H].
      rewrite /mnorm big1 => [|i _]; first exact: Rle_refl. rewrite big1 // => j _. by rewrite mxE Rabs_R0.
    apply: Rle_trans (mnormD _ _) _. apply: Rplus_le_compat_l. exact: H.
  Qed.
  Lemma cont_lin m n (F : nat -> 'M[R]_(m, n)) : cont (fun w => \sum_(k < K) nth 0 w k *: F k).
  Proof.
    move=> d Hd. set S := \sum_(k < K) mnorm (F k). have HS : (0 <= S)%re by apply: sumR_ge0 => k _; exact: mnorm_ge0.
    have He : (0 < d / (S + 1))%re by apply: Rdiv_lt_0_compat; lra.
    exists (d / (S + 1))%re. split=> // w _ Hw. rewrite -sumrB. apply: Rle_trans (mnorm_sum _) _.
    apply: Rle_trans (_ : (\sum_(k < K) (d / (S + 1))%re * mnorm (F k))%R <= _)%re.
      apply: sumR_le => k _. rewrite -scalerBl mnormZ. apply: Rmult_le_compat_r; first exact: mnorm_ge0. exact: Hw.
    rewrite -big_distrr /= -/S. change (d / (S + 1) * S <= d)%re. apply: Rle_trans (_ : d / (S + 1) * (S + 1) <= _)%re; first by nra.
    apply: Req_le. field. lra.
  Qed.
  Lemma cont_tr m n (f : list R -> 'M[R]_(m, n)) : cont f -> cont (fun w => (f w)^T).
  Proof. move=> H d Hd. have [e [He E]] := H d Hd. exists e. split=> // w Fw Hw. rewrite -trB mnormT. exact: E. Qed.
  Lemma cont_mul m n p (f : list R -> 'M[R]_(m, n)) (g : list R -> 'M[R]_(n, p)) : cont f -> cont g -> cont (fun w => f w *m g w).
  Proof.
    move=> Hf Hg d Hd. set a := mnorm (f w0). set b := mnorm (g w0). have Ha : (0 <= a)%re := mnorm_ge0 _. have Hb : (0 <= b)%re := mnorm_ge0 _.
    pose t := Rmin 1 (d / (1 + a + b))%re. have Ht0 : (0 < d / (1 + a + b))%re by apply: Rdiv_lt_0_compat; lra.
    have Ht : (0 < t)%re by apply: Rmin_pos; lra. have Ht1 : (t <= 1)%re := Rmin_l _ _.
    have Ht2 : (t * (1 + a + b) <= d)%re.
      apply: Rle_trans (_ : d / (1 + a + b) * (1 + a + b) <= _)%re; first by apply: Rmult_le_compat_r; [lra|exact: Rmin_r]. apply: Req_le. field. lra.
    have [e1 [He1 E1]] := Hf t Ht. have [e2 [He2 E2]] := Hg t Ht. exists (Rmin e1 e2). split; first by apply: Rmin_pos.
    move=> w Fw Hw. have A := E1 w Fw (close_le (Rmin_l _ _) Hw). have B := E2 w Fw (close_le (Rmin_r _ _) Hw).
    have -> : f w *m g w - f w0 *m g w0 = (f w - f w0) *m (g w - g w0) + ((f w - f w0) *m g w0 + f w0 *m (g w - g w0)).
      move: (f w) (f w0) (g w) (g w0) => a1 a2 b1 b2. have -> : a1 *m b1 = (a1 - a2 + a2) *m (b1 - b2 + b2) by rewrite !subrK.
      rewrite mulmxDl !mulmxDr !addrA. by rewrite addrK.
    apply: Rle_trans (mnormD _ _) _. have := mnormD ((f w - f w0) *m g w0) (f w0 *m (g w - g w0)).
    have := mnormM (f w - f w0) (g w - g w0). have := mnormM (f w - f w0) (g w0). have := mnormM (f w0) (g w - g w0).
    have := mnorm_ge0 (f w - f w0). have := mnorm_ge0 (g w - g w0). rewrite -/a -/b. move: A B.
    move: (mnorm (f w - f w0)) (mnorm (g w - g w0)) => x y.
    move: (mnorm ((f w - f w0) *m (g w - g w0))) (mnorm ((f w - f w0) *m g w0)) (mnorm (f w0 *m (g w - g w0))) (mnorm (_ + _)) => p1 p2 p3 p4. nra.
  Qed.
  Lemma cont_inv n (f : list R -> 'M[R]_n) : feasible K w0 -> (forall w, feasible K w -> f w \in unitmx) -> cont f -> cont (fun w => invmx (f w)).
  Proof.
    move=> F0 Hu Hf d Hd. set x := mnorm (invmx (f w0)). have Hx : (0 <= x)%re := mnorm_ge0 _.
    pose t := Rmin (/ 2) (d / (2 * (x + 1)))%re. have Ht0 : (0 < d / (2 * (x + 1)))%re by apply: Rdiv_lt_0_compat; lra.
    have Ht : (0 < t)%re by apply: Rmin_pos; lra. have Ht1 : (t <= / 2)%re := Rmin_l _ _.
    have Ht2 : (2 * t * (x + 1) <= d)%re.
      have H : (t <= d / (2 * (x + 1)))%re := Rmin_r _ _.
      apply: Rle_trans (_ : d / (2 * (x + 1)) * (2 * (x + 1)) <= _)%re; first by nra. apply: Req_le. field. lra.
    have Hs : (0 < t / (x + 1))%re by apply: Rdiv_lt_0_compat; lra.
    have [e [He E]] := Hf _ Hs. exists e. split=> // w Fw Hw. have A := E w Fw Hw.
    have Ex : invmx (f w) - invmx (f w0) = invmx (f w) *m (f w0 - f w) *m invmx (f w0).
      rewrite mulmxBr mulmxBl mulVmx ?Hu // mul1mx -mulmxA mulmxV ?Hu // mulmx1. done.
    have Ay : (mnorm (invmx (f w)) <= mnorm (invmx (f w) - invmx (f w0)) + x)%re.
      have := mnormD (invmx (f w) - invmx (f w0)) (invmx (f w0)). by rewrite subrK.
    have D0 : (mnorm (f w0 - f w) <= t / (x + 1))%re by rewrite -mnormN opprB.
    have B : (mnorm (invmx (f w) - invmx (f w0)) <= mnorm (invmx (f w)) * mnorm (f w0 - f w) * x)%re.
      rewrite {1}Ex. apply: Rle_trans (mnormM _ _) _. apply: Rmult_le_compat_r; first exact: Hx. exact: mnormM.
    have Dx : (mnorm (f w0 - f w) * x <= t)%re.
      apply: Rle_trans (_ : t / (x + 1) * (x + 1) <= _)%re; last by apply: Req_le; field; lra. have := mnorm_ge0 (f w0 - f w). nra.
    have D1 := mnorm_ge0 (f w0 - f w). have D2 := mnorm_ge0 (invmx (f w)). have D3 := mnorm_ge0 (invmx (f w) - invmx (f w0)).
    move: (mnorm (invmx (f w) - invmx (f w0))) (mnorm (invmx (f w))) (mnorm (f w0 - f w)) Ay D0 B Dx D1 D2 D3 => y z q Ay D0 B Dx D1 D2 D3.
    have B2 : (y <= z * t)%re by nra. have B3 : (y <= (y + x) * t)%re by nra. nra.
  Qed.
End Cont.

Lemma min_eps (T : Type) (P : T -> R -> Prop) (l : list T) :
  (forall x, List.In x l -> exists e, (0 < e)%re /\ forall e', (0 < e' <= e)%re -> P x e') -> exists e, (0 < e)%re /\ forall x, List.In x l -> P x e.
Proof.
  move=> H. suff [e [He E]] : exists e, (0 < e)%re /\ forall x e', List.In x l -> (0 < e' <= e)%re -> P x e'.
    exists e. split=> // x Hx. apply: E => //. lra.
  elim: l H => [|a l IH] H; first by exists 1%re; split; [lra|].
  have [e1 [He1 E1]] := H a (or_introl erefl). have [e2 [He2 E2]] := IH (fun x Hx => H x (or_intror Hx)).
  exists (Rmin e1 e2). split; first exact: Rmin_pos. have Hl := Rmin_l e1 e2. have Hr := Rmin_r e1 e2.
  move=> x e' [<-|Hx] He'; [apply: E1|apply: E2 => //]; lra.
Qed.

Section Run.
  Context (n : nat) (sigmas : covs n) (means : option (mus n)) (returns : rets n).
  Let K := List.length sigmas.
  Let LA := RLA n K.
  Context (c : comb LA).
  Hypothesis Hd : dicts sigmas.
  Hypothesis Hc : from_sigmas LA sigmas returns means = Ok c.
  Hypothesis Hy : all_sym sigmas.
  Let Hinv := from_sigmas_inv LA sigmas returns means c Hd Hc.

  (** The forecast depends continuously on the weights. *)
  Lemma combined_cont t w0 r d : (0 < d)%re -> List.In t (forecast_times LA sigmas) -> feasible K w0 -> combined LA sigmas means t w0 = Some r ->
    exists e, (0 < e)%re /\ forall w r', feasible K w -> close K w0 e w -> combined LA sigmas means t w = Some r' -> near_result d r r'.
  Proof.
    move=> Hdd Ht F0 Er. case: Hinv => Hsm [Hfe _]. have Hfac := fac_spec Hd Hsm Hfe Hy Ht.
    set L := fun w => avg_factor K (fac sigmas t) w. set N := fun w => avg_nu K (fac sigmas t) (fun k => mean_of means sigmas k t) w.
    have UL w : feasible K w -> L w \in unitmx.
      move=> Fw. apply: avg_unit => //; first by move=> k Hk; case: (Hfac k Hk) => S [_ [_ []]]. by move=> k i Hk; case: (Hfac k Hk) => S [_ [_ [_ []]]].
    have CL : cont K w0 L by exact: cont_lin. have CN : cont K w0 N by apply: (@cont_lin K w0 n 1 (fun k : nat => (fac sigmas t k)^T *m mean_of means sigmas k t)).
    have CT := cont_tr CL.
    have CS : cont K w0 (fun w => invmx (L w *m (L w)^T)).
      apply: (@cont_inv K w0 n (fun w => L w *m (L w)^T)) => //; last exact: cont_mul. by move=> w Fw; rewrite unitmx_mul unitmx_tr UL.
    have CM : cont K w0 (fun w => invmx (L w)^T *m N w).
      apply: cont_mul => //. apply: (@cont_inv K w0 n (fun w => (L w)^T)) => //. by move=> w Fw; rewrite unitmx_tr UL.
    have [e1 [He1 E1]] := CS d Hdd. have [e2 [He2 E2]] := CM d Hdd.
    exists (Rmin d (Rmin e1 e2)). split; first by apply: Rmin_pos => //; exact: Rmin_pos.
    move=> w r' Fw Hw Er'. have H1 := close_le (Rle_trans _ _ _ (Rmin_r d (Rmin e1 e2)) (Rmin_l e1 e2)) Hw.
    have H2 := close_le (Rle_trans _ _ _ (Rmin_r d (Rmin e1 e2)) (Rmin_r e1 e2)) Hw. have H0 := close_le (Rmin_l d (Rmin e1 e2)) Hw.
    have A1 := E1 w Fw H1. have A2 := E2 w Fw H2.
    have S0 : size w0 = K by case: F0. have S1 : size w = K by case: Fw.
    move: Er Er'. rewrite !combined_real //. cbv zeta. rewrite -/(L w) -/(L w0) -/(N w) -/(N w0) (UL _ Fw) (UL _ F0) => -[<-] [<-]. split=> //=. split; first exact: H0. split.
    - move=> i. have := mnorm_entry (invmx (L w)^T *m N w - invmx (L w0)^T *m N w0) i 0. rewrite [fun_of_matrix (GRing.add _ _) _ _]mxE [fun_of_matrix (GRing.opp _) _ _]mxE. exact: (fun h => Rle_trans _ _ _ h A2).
    - move=> i j. have := mnorm_entry (invmx (L w *m (L w)^T) - invmx (L w0 *m (L w0)^T)) i j. rewrite [fun_of_matrix (GRing.add _ _) _ _]mxE [fun_of_matrix (GRing.opp _) _ _]mxE. exact: (fun h => Rle_trans _ _ _ h A1).
  Qed.

  Lemma nearly_le eps eps' (p : problem LA) w : (eps <= eps')%re -> nearly_optimal eps p w -> nearly_optimal eps' p w.
  Proof. move=> H [F O]. split=> // w' Fw'. have := O w' Fw'. lra. Qed.

  (** Nearly optimal weights are close to the optimal ones. *)
  Lemma near_close pairs p w1 e : (0 < e)%re -> (forall s u, List.In (s, u) pairs -> consecutive (forecast_times LA sigmas) s u) ->
    fst p = pairs_diag LA sigmas pairs -> l_cholK LA (pairs_quad LA sigmas means returns pairs) = Some (snd p) -> optimal (n := n) (K := K) p w1 ->
    exists eps, (0 < eps)%re /\ forall w2, nearly_optimal eps p w2 -> close K w1 e w2.
  Proof.
    move=> He Hp E1 E2 O1. have Ep : p = (pairs_diag LA sigmas pairs, snd p) by rewrite -E1; case: (p).
    have Hspd : spd (pairs_quad LA sigmas means returns pairs : 'M[R]_K).
      have HC := chol_is_chol (quad_sym sigmas means returns pairs) E2. have [_ [_ E]] := HC. rewrite -E. apply: spd_LLT. exact: is_chol_unit HC.
    have [l [Hl Q]] := spd_lower Hspd.
    have Hpos : (0 < l * (e * e) / 4)%re by apply: Rdiv_lt_0_compat; last lra; do ! apply: Rmult_lt_0_compat.
    exists (l * (e * e) / 4)%re. split=> // w2 O2 k Hk.
    rewrite Ep in O1 O2. have := near_qf (lagged_pairs Hd Hc Hy Hp) E2 O1 O2. have := Q (wvec K w1 - wvec K w2).
    move: (qf _ _) => q H1 H2. have H3 : (nsq (wvec K w1 - wvec K w2) <= e * e)%re by nra.
    have H4 : ((nth 0 w2 k - nth 0 w1 k) * (nth 0 w2 k - nth 0 w1 k) <= nsq (wvec K w1 - wvec K w2))%re.
      rewrite nsqE. have := sum_ge_term (F := fun i : 'I_K => (wvec K w1 - wvec K w2) i 0 * (wvec K w1 - wvec K w2) i 0) (Ordinal Hk).
      rewrite !mxE /= => H. apply: Rle_trans (H _); last by move=> i; exact: Rle_0_sqr. apply: Req_le. move: (nth _ _ _) (nth _ _ _) => a b. toR. eqR. ring.
    apply: Rsqr_incr_0_var; last by lra. rewrite -Rsqr_abs /Rsqr. exact: Rle_trans H4 H3.
  Qed.

  Hypothesis Hi : increasing (forecast_times LA sigmas).

  Theorem near_run slv window times items d : (0 < d)%re -> returns_optimal slv -> solve LA slv c window times = (items, None) ->
    exists eps, (0 < eps)%re /\ forall slv', returns_nearly eps slv' -> exists items', solve LA slv' c window times = (items', None) /\
      List.length items' = List.length items /\
      forall j r r', List.nth_error items j = Some (Some r) -> List.nth_error items' j = Some (Some r') -> near_result d r r'.
  Proof.
    move=> Hdd Ho Hs. have [Hlen [Hpos Hrun]] := solve_run LA _ _ _ _ _ _ _ _ Hd Hc Hi Hs.
    set w := eff (List.length (forecast_times LA sigmas)) window in Hlen Hpos Hrun.
    set l := positions (scored LA sigmas) w times in Hlen Hpos Hrun.
    have [eps [He E]] : exists eps, (0 < eps)%re /\ forall j, List.In j (List.seq 0 (List.length items)) ->
        forall i p w2 r r', List.nth_error l j = Some i -> posed LA sigmas means returns w i = Ok (List.nth i (scored LA sigmas) Z0, p) ->
        List.nth_error items j = Some (Some r) -> nearly_optimal eps p w2 -> combined LA sigmas means (List.nth i (scored LA sigmas) Z0) w2 = Some r' -> near_result d r r'.
      apply: min_eps => j Hj. case El: (List.nth_error l j) => [i|]; last by exists 1%re; split; [lra|].
      have [h [p [Hp Hm]]] := Hrun j i El. case Ex: (slv h p) Hm => [x|] Hm; last first.
        exists 1%re. split; first lra. move=> e' _ i' p' w2 r r' _ _. by rewrite Hm.
      case: Hm => r [Hr Hit]. have Hox := Ho _ _ _ Ex. have Fx := proj1 Hox.
      have Ht : List.In (List.nth i (scored LA sigmas) Z0) (forecast_times LA sigmas).
        apply: scored_incl. apply: List.nth_In. have := Hpos i (List.nth_error_In _ _ El). case. done.
      have [e [He0 Ec]] := combined_cont Hdd Ht Fx Hr.
      have [Et [E1 E2]] := posed_at LA _ _ _ _ _ _ _ Hp.
      have [eps [Hep En]] := near_close He0 (fun s u H => pairs_at_consecutive LA sigmas w i s u Hd H) E1 E2 Hox.
      exists eps. split=> // e' He' i' p' w2 r1 r' [Ei]; subst i'. rewrite Hp => -[Ep]; subst p'. rewrite Hit => -[Er1]; subst r1 => Ho2 Hr'.
      apply: Ec Hr'; first by case: Ho2. apply: En. apply: nearly_le Ho2. lra.
    exists eps. split=> // slv' Hn.
    have [todo Ep] : exists todo, prepare LA c window times = Ok todo by move: Hs; rewrite /solve; case: (prepare _ _ _ _) => [todo|] //; exists todo.
    have [items' Hs'] := exact_no_raise Hd Hc Hy (fun h p w' H => proj1 (Hn h p w' H)) Hi Ep. exists items'. split=> //. have [Hlen' [_ Hrun']] := solve_run LA _ _ _ _ _ _ _ _ Hd Hc Hi Hs'.
    split; first by rewrite Hlen'; exact: Logic.eq_sym Hlen. move=> j r r' Hj Hj'.
    case El: (List.nth_error l j) => [i|]; last first.
      have := List.nth_error_None l j => -[H _]. have Hge := H El. have : List.nth_error items j = None by apply/List.nth_error_None; rewrite Hlen. by rewrite Hj.
    have [h [p [Hp Hm]]] := Hrun' j i El. case Ex: (slv' h p) Hm => [x|]; last by rewrite Hj'.
    case=> r1 [Hr1]. rewrite Hj' => -[Er]; subst r1.
    apply: (E j _ i p x r r') => //; last exact: Hn Ex. apply/List.in_seq. split; first lia. apply/List.nth_error_Some. by rewrite Hj.
  Qed.
End Run.
