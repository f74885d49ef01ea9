(** * Exact properties of the combined predictor. *)
From Coq Require Import Reals Lra ZArith String List Lia.
Set Warnings "-notation-overridden,-ambiguous-paths".
From mathcomp Require Import all_ssreflect all_algebra.
From Verif Require Import RStruct MatR Num Py ListFacts Combination SpecComb CombFacts CombBuild CombSolve CombRun CombProps CombItems RealLA SpecCombR.
Set Implicit Arguments.
Unset Strict Implicit.
Unset Printing Implicit Defensive.
Import GRing.Theory.
Local Open Scope ring_scope.
Delimit Scope R_scope with re.

Lemma fold_map2_sum (V : zmodType) (A B : Type) (f : A -> B -> V) l1 l2 a0 b0 z :
  List.length l1 = List.length l2 ->
  List.fold_left (fun x y => x + y) (map2 f l1 l2) z =
  z + \sum_(k < List.length l1) f (List.nth k l1 a0) (List.nth k l2 b0).
Proof.
elim: l1 l2 z => [|a l1 IH] [|b l2] z //=; first by rewrite big_ord0 addr0.
move=> [E]. by rewrite IH // big_ord_recl addrA.
Qed.
Lemma fold_map_sum (V : zmodType) (A : Type) (f : A -> V) l a0 z :
  List.fold_left (fun x y => x + y) (List.map f l) z = z + \sum_(k < List.length l) f (List.nth k l a0).
Proof.
elim: l z => [|a l IH] z //=; first by rewrite big_ord0 addr0.
by rewrite IH // big_ord_recl addrA.
Qed.
Lemma nth_same (T : Type) (d : T) l k : List.nth k l d = nth d l k.
Proof. by elim: l k => [|a l IH] [|k] /=. Qed.
Lemma size_same (T : Type) (l : list T) : size l = List.length l.
Proof. by []. Qed.

(** ** Weighted averages of lower triangular factors *)
Lemma avg_trig n K (F : nat -> 'M[R]_n) w :
  (forall k, (k < K)%N -> is_trig_mx (F k)) -> is_trig_mx (avg_factor K F w).
Proof.
move=> H. apply/is_trig_mxP => i j Hij. rewrite /avg_factor summxE big1 // => k _.
by rewrite mxE (is_trig_mxP (H k (ltn_ord k))) // mulr0.
Qed.
Lemma avg_diag_pos n K (F : nat -> 'M[R]_n) w : feasible K w ->
  (forall k i, (k < K)%N -> (0 < F k i i)%re) -> forall i, (0 < avg_factor K F w i i)%re.
Proof.
move=> [Hs [H0 H1]] HF i. rewrite /avg_factor summxE.
have Hk : exists k : 'I_K, (0 < nth 0 w k)%re.
  apply: Classical_Prop.NNPP => Hn.
  have : \sum_(k < K) nth 0 w k = 0.
    rewrite big1 // => k _. have := H0 k (ltn_ord k) => Hk. apply: Rle_antisym => //.
    by apply: Rnot_lt_le => Hlt; apply: Hn; exists k.
  rewrite H1; toR => ?; lra.
case: Hk => k Hk. apply: (@sumR_gt0 _ _ k).
- move=> k'; rewrite mxE; toR. apply: Rmult_le_pos; first exact: H0.
  exact/Rlt_le/HF.
- rewrite mxE; toR. apply: Rmult_lt_0_compat => //. exact: HF.
Qed.
Lemma avg_unit n K (F : nat -> 'M[R]_n) w : feasible K w ->
  (forall k, (k < K)%N -> is_trig_mx (F k)) ->
  (forall k i, (k < K)%N -> (0 < F k i i)%re) -> avg_factor K F w \in unitmx.
Proof. by move=> Hw Ht Hd; apply: trig_unit; [apply: avg_trig | apply: avg_diag_pos]. Qed.

Section Comb.
  Context (n : nat) (sigmas : covs n) (means : option (mus n)) (returns : rets n).
  Let K := List.length sigmas.
  Let LA := RLA n K.

  Definition fac (t : Z) (k : nat) : 'M[R]_n := factor LA sigmas (fst (expert sigmas k)) t.

  Lemma expert_in k : (k < K)%N -> List.In (expert sigmas k) sigmas.
  Proof. by move=> /ltP Hk; apply: List.nth_In. Qed.

  Lemma mean_at_of k t : mean_at LA means (fst (expert sigmas k)) t = mean_of means sigmas k t.
  Proof. by []. Qed.

  Lemma fac_spec t : dicts sigmas -> same_times LA sigmas -> factors_exist LA sigmas -> all_sym sigmas ->
    List.In t (forecast_times LA sigmas) -> factors_at sigmas t (fac t).
  Proof.
    move=> Hd Hs Hf Hy Ht k Hk. have Hin := expert_in Hk.
    have Hkt : List.In t (List.map fst (snd (expert sigmas k))) by apply/(Hs _ t Hin).
    rewrite /cov_of /fac /factor.
    have Eg : dict_get String.eqb sigmas (fst (expert sigmas k)) = Some (snd (expert sigmas k)).
      apply: kget_in; [exact: (proj1 Hd) | by case: (expert sigmas k) Hin].
    rewrite Eg.
    case/in_map_iff: Hkt => -[t' S] [/= E1 HS]; subst t'.
    have Hnd : List.NoDup (List.map fst (snd (expert sigmas k))).
      move: (proj2 Hd) => /Forall_forall. apply. exact: Hin.
    have Ez : dict_get Z.eqb (snd (expert sigmas k)) t = Some S by apply: dict_get_in.
    rewrite Ez. exists S; split=> //.
    have := Hf _ _ Hin HS. rewrite /precision_factor /=.
    case: ifP => // Hu. case Ec: (chol (invmx S)) => [L|] // _. split=> //.
    apply: chol_is_chol Ec. apply: sym_inv. exact: Hy Hin HS.
  Qed.

  Lemma combined_real t w : size w = K ->
    combined LA sigmas means t w =
    let L := avg_factor K (fac t) w in
    let nu := avg_nu K (fac t) (fun k => mean_of means sigmas k t) w in
    if L \in unitmx then Some (mkResult LA t (invmx L^T *m nu) (invmx (L *m L^T)) w) else None.
  Proof.
    move=> Hw. rewrite /combined.
    have EL : List.fold_left (l_addM LA) (map2 (fun ks x => l_scaleM LA x (factor LA sigmas (fst ks) t)) sigmas w)
                 (l_zeroM LA) = avg_factor K (fac t) w.
      rewrite (@fold_map2_sum _ _ _ (fun ks x => x *: factor LA sigmas (fst ks) t) sigmas w (EmptyString, nil) 0) //.
      by rewrite add0r; apply: eq_bigr => k _; rewrite nth_same.
    have En : List.fold_left (l_addV LA) (map2 (fun ks x => l_scaleV LA x
                 (l_tmulv LA (factor LA sigmas (fst ks) t) (mean_at LA means (fst ks) t))) sigmas w) (l_zeroV LA)
              = avg_nu K (fac t) (fun k => mean_of means sigmas k t) w.
      rewrite (@fold_map2_sum _ _ _ (fun ks x => x *: ((factor LA sigmas (fst ks) t)^T *m mean_at LA means (fst ks) t))
                 sigmas w (EmptyString, nil) 0) //.
      by rewrite add0r; apply: eq_bigr => k _; rewrite nth_same.
    rewrite EL En /= unitmx_tr unitmx_mul unitmx_tr andbb.
    by case: ifP.
  Qed.
  (** C16 for one Result. *)
  Lemma combined_spd t w r : dicts sigmas -> same_times LA sigmas -> factors_exist LA sigmas -> all_sym sigmas ->
    List.In t (forecast_times LA sigmas) -> feasible K w -> combined LA sigmas means t w = Some r ->
    spd (r_cov LA r) /\ r_time LA r = t /\ r_weights LA r = w /\
    exists F, factors_at sigmas t F /\
      invmx (r_cov LA r) = avg_factor K F w *m (avg_factor K F w)^T /\
      (avg_factor K F w)^T *m r_mean LA r = avg_nu K F (fun k => mean_of means sigmas k t) w.
  Proof.
    move=> Hd Hs Hf Hy Ht Hw. rewrite combined_real; last by case: Hw.
    have Hfac := fac_spec Hd Hs Hf Hy Ht.
    cbv zeta. case: ifP => // Hu [<-] /=.
    split; first by apply: spd_inv; apply: spd_LLT.
    split=> //. split=> //. exists (fac t). split=> //. split; first by rewrite invmxK.
    by rewrite mulmxA mulmxV ?mul1mx // unitmx_tr.
  Qed.
  (** With feasible weights a Result is always produced. *)
  Lemma combined_some t w : dicts sigmas -> same_times LA sigmas -> factors_exist LA sigmas -> all_sym sigmas ->
    List.In t (forecast_times LA sigmas) -> feasible K w -> exists r, combined LA sigmas means t w = Some r.
  Proof.
    move=> Hd Hs Hf Hy Ht Hw. rewrite combined_real; last by case: Hw.
    have Hfac := fac_spec Hd Hs Hf Hy Ht. cbv zeta. rewrite avg_unit //; first by eexists.
    - by move=> k Hk; case: (Hfac k Hk) => S [_ [_ []]].
    - by move=> k i Hk; case: (Hfac k Hk) => S [_ [_ [_ []]]].
  Qed.

  (** C22: experts that agree. *)
  Lemma combined_agree t w r S m : dicts sigmas -> same_times LA sigmas -> factors_exist LA sigmas -> all_sym sigmas ->
    List.In t (forecast_times LA sigmas) -> size w = K -> \sum_(k < K) nth 0 w k = 1 ->
    (forall k, (k < K)%N -> cov_of sigmas k t = Some S /\ mean_of means sigmas k t = m) ->
    combined LA sigmas means t w = Some r -> r_cov LA r = S /\ r_mean LA r = m.
  Proof.
    move=> Hd Hs Hf Hy Ht Hsz H1 Hag. rewrite combined_real //.
    have Hfac := fac_spec Hd Hs Hf Hy Ht.
    have HK : (0 < K)%N.
      rewrite lt0n; apply/eqP => E. move: H1; rewrite E big_ord0; toR => ?; lra.
    have EF : forall k, (k < K)%N -> fac t k = fac t 0.
      move=> k Hk. case: (Hfac k Hk) (Hfac 0%N HK) => S1 [E1 [_ C1]] [S2 [E2 [_ C2]]].
      case: (Hag k Hk) (Hag 0%N HK) => A1 _ [A2 _]. move: E1 E2; rewrite A1 A2 => -[E1] [E2]; subst S1 S2.
      exact: is_chol_inj C1 C2.
    have EL : avg_factor K (fac t) w = fac t 0.
      rewrite /avg_factor (eq_bigr (fun k : 'I_K => nth 0 w k *: fac t 0)) => [|k _]; last by rewrite EF.
      by rewrite -scaler_suml H1 scale1r.
    have En : avg_nu K (fac t) (fun k => mean_of means sigmas k t) w = (fac t 0)^T *m m.
      rewrite /avg_nu (eq_bigr (fun k : 'I_K => nth 0 w k *: ((fac t 0)^T *m m))) => [|k _].
        by rewrite -scaler_suml H1 scale1r.
      by rewrite EF // (proj2 (Hag k (ltn_ord k))).
    cbv zeta. rewrite EL En. case: ifP => // Hu [<-] /=.
    case: (Hfac 0%N HK) => S0 [E0 [Hu0 C0]]. move: E0; rewrite (proj1 (Hag 0%N HK)) => -[E0]; subst S0.
    split; first by case: C0 => _ [_ ->]; rewrite invmxK.
    by rewrite mulmxA mulVmx ?mul1mx // unitmx_tr.
  Qed.

  (** C29: zero means. *)
  Lemma combined_zero_mean t w r : size w = K ->
    (forall k, (k < K)%N -> mean_of means sigmas k t = 0) ->
    combined LA sigmas means t w = Some r -> r_mean LA r = 0.
  Proof.
    move=> Hw Hm. rewrite combined_real //. cbv zeta. case: ifP => // _ [<-] /=.
    rewrite /avg_nu big1 ?mulmx0 // => k _. by rewrite Hm // mulmx0 scaler0.
  Qed.
End Comb.
