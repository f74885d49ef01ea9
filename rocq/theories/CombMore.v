(** * Adding experts (C129). *)
From Coq Require Import Reals Lra ZArith String List Lia Permutation.
Set Warnings "-notation-overridden,-ambiguous-paths".
From mathcomp Require Import all_ssreflect all_algebra.
From Verif Require Import RStruct MatR Num Py ListFacts Combination SpecComb CombFacts CombBuild CombSolve CombRun CombProps CombItems RealLA SpecCombR CombReal CombObj CombOpt CombExact CombPerm.
Set Implicit Arguments.
Unset Strict Implicit.
Unset Printing Implicit Defensive.
Import GRing.Theory.
Local Open Scope ring_scope.
Delimit Scope R_scope with re.

Section More.
  Context (n : nat) (s x : covs n) (means : option (mus n)) (returns : rets n).
  Let b : covs n := List.app s x.
  Let K := List.length s.
  Let K' := List.length b.
  Let LA := RLA n K.
  Let LB := RLA n K'.
  Hypothesis Hd : dicts b.

  Definition padded (w : list R) : list R := List.app w (List.repeat 0 (List.length x)).
  Lemma KK' : K' = (K + List.length x)%N. Proof. by rewrite /K' /b List.app_length. Qed.
  Lemma dicts_s : dicts s.
  Proof.
    case: Hd => H1 H2; split.
    - move: H1. rewrite /b List.map_app. elim: (List.map fst s) => [|a l IH] /= H; constructor; inversion H; subst; last exact: IH. move=> Ha. apply: H3. apply: in_or_app. by left.
    - by move: H2 => /Forall_app [].
  Qed.
  Lemma expert_app k : (k < K)%N -> expert b k = expert s k.
  Proof. move=> /ltP Hk. exact: List.app_nth1. Qed.
  Lemma get_app k : (k < K)%N -> dict_get String.eqb b (fst (expert s k)) = dict_get String.eqb s (fst (expert s k)).
  Proof.
    move=> Hk. have Hin := expert_in Hk. rewrite (kget_in s _ (snd (expert s k)) (proj1 dicts_s)); last by case: (expert s k) Hin.
    apply: kget_in; first exact: (proj1 Hd). apply: in_or_app. left. by case: (expert s k) Hin.
  Qed.
  Lemma fac_app t k : (k < K)%N -> fac b t k = fac s t k.
  Proof. move=> Hk. by rewrite /fac expert_app // /factor get_app. Qed.
  Lemma nth_padded w k : size w = K -> nth 0 (padded w) k = if (k < K)%N then nth 0 w k else 0.
  Proof.
    move=> Hs. rewrite -nth_same. case: ifP => Hk.
    - rewrite List.app_nth1 ?nth_same //. apply/ltP. by rewrite -size_same Hs.
    - rewrite List.app_nth2; last by apply/leP; rewrite -size_same Hs leqNgt Hk. 
      elim: (List.length x) (_ - _)%coq_nat => [|m IH] [|j] //=.
  Qed.
  Lemma size_padded w : size w = K -> size (padded w) = K'.
  Proof. move=> Hs. by rewrite size_same List.app_length List.repeat_length -size_same Hs KK'. Qed.
  Lemma sum_padded (V : lmodType R) (F G : nat -> V) w : size w = K -> (forall k, (k < K)%N -> F k = G k) ->
    \sum_(k < K') nth 0 (padded w) k *: F k = \sum_(k < K) nth 0 w k *: G k.
  Proof.
    move=> Hs E. rewrite KK' big_split_ord /= [X in _ + X]big1 ?addr0 => [|i _]; last by rewrite nth_padded // ltnNge leq_addr /= scale0r.
    apply: eq_bigr => k _. by rewrite nth_padded // ltn_ord E.
  Qed.
  Lemma feasible_padded w : feasible K w -> feasible K' (padded w).
  Proof.
    case=> Hs [H0 H1]. split; first exact: size_padded. split.
    - move=> k _. rewrite nth_padded //. case: ifP => Hk; [exact: H0|exact: Rle_refl].
    - have := sum_padded (V := [lmodType R of R^o]) (F := fun _ => 1) (G := fun _ => 1) Hs (fun _ _ => erefl).
      rewrite /GRing.scale /=. under eq_bigr do rewrite mulr1. under [X in _ = X -> _]eq_bigr do rewrite mulr1. by rewrite H1.
  Qed.
  (** Experts with weight 0 do not matter. *)
  Lemma combined_padded t w : size w = K ->
    match combined LA s means t w, combined LB b means t (padded w) with
    | Some r, Some r' => (r_mean LA r : 'cV[R]_n) = r_mean LB r' /\ (r_cov LA r : 'M[R]_n) = r_cov LB r'
    | None, None => True
    | _, _ => False
    end.
  Proof.
    move=> Hs. rewrite !combined_real ?size_padded //. cbv zeta.
    have EL : avg_factor K' (fac b t) (padded w) = avg_factor K (fac s t) w by apply: sum_padded => // k Hk; exact: fac_app.
    have EN : avg_nu K' (fac b t) (fun k => mean_of means b k t) (padded w) = avg_nu K (fac s t) (fun k => mean_of means s k t) w.
      apply: (sum_padded (F := fun k => (fac b t k)^T *m mean_of means b k t) (G := fun k => (fac s t k)^T *m mean_of means s k t)) => // k Hk.
      by rewrite fac_app // /mean_of expert_app.
    rewrite EL EN. by case: ifP.
  Qed.

End More.

Section Sub.
  Context (n : nat) (s x b : covs n) (means : option (mus n)) (returns : rets n).
  Let K := List.length s.
  Let K' := List.length b.
  Let LA := RLA n K.
  Let LB := RLA n K'.
  Hypothesis Hd : dicts b.
  Hypothesis Hp : Permutation (List.app s x) b.
  Let Hd0 : dicts (List.app s x) := dicts' Hd (Permutation_sym Hp).
  Definition spread (w : list R) : list R := reorder (List.app s x) b (padded x w).

  Lemma feasible_spread w : feasible K w -> feasible K' (spread w).
  Proof. move=> Fw. apply: feasible_perm => //. exact: feasible_padded. Qed.
  Lemma combined_spread t w : size w = K ->
    match combined LA s means t w, combined LB b means t (spread w) with
    | Some r, Some r' => (r_mean LA r : 'cV[R]_n) = r_mean LB r' /\ (r_cov LA r : 'M[R]_n) = r_cov LB r'
    | None, None => True
    | _, _ => False
    end.
  Proof.
    move=> Hs. have Sp := size_padded x Hs. have := combined_padded means Hd0 t Hs.
    have E1 := combined_real means t Sp. have E2 := @combined_real n b means t (spread w) (size_reorder _ _ _). cbv zeta in E1, E2.
    rewrite E1 E2.
    have EL := avgL_perm Hd0 Hp t Sp. have EN := avgN_perm means Hd0 Hp t Sp. rewrite /avgL /avgN in EL EN.
    case: (combined LA s means t w) => [r|]; rewrite /spread EL EN; by case: ifP.
  Qed.

  Context (c : comb LA) (c' : comb LB).
  Hypothesis Hc : from_sigmas LA s returns means = Ok c.
  Hypothesis Hc' : from_sigmas LB b returns means = Ok c'.
  Hypothesis Hy : all_sym b.
  Hypothesis Hi : increasing (forecast_times LB b).

  Theorem more_experts slv window times items ex r w : returns_optimal slv -> feasible K w ->
    solve LB slv c' window times = (items, ex) -> List.In (Some r) items ->
    exists pairs, List.length pairs = eff (List.length (forecast_times LB b)) window /\
      (forall t u, List.In (t, u) pairs -> consecutive (forecast_times LB b) t u) /\
      (exists a, List.map snd pairs = sub (scored LB b) a (List.length pairs)) /\ List.last (List.map snd pairs) Z0 = r_time LB r /\
      exists pred few, (forall t u, List.In (t, u) pairs -> result_at LB c' t (r_weights LB r) = Ok (pred t) /\ result_at LA c t w = Ok (few t)) /\
        (\sum_(su <- pairs) gauss_loglik (return_at LA returns su.2) (r_mean LA (few su.1)) (r_cov LA (few su.1))
         <= \sum_(su <- pairs) gauss_loglik (return_at LA returns su.2) (r_mean LB (pred su.1)) (r_cov LB (pred su.1)))%re.
  Proof.
    move=> Ho Fs. have [Hsm [Hfe [_ Ec']]] := from_sigmas_inv LB _ _ _ _ Hd Hc'. have [_ [_ [_ Ec]]] := from_sigmas_inv LA _ _ _ _ (dicts_s Hd0) Hc.
    rewrite /solve. case Ep: (prepare LB c' window times) => [todo|e]; last by case=> <- _.
    move=> Hs Hin. rewrite {1}Ec' in Hs.
    have [h [t [p [v [Hpp [Hw [Ht Hr]]]]]]] := loop_items LB _ _ _ _ _ _ _ _ _ Hs Hin.
    have [Fw Ow] := Ho _ _ _ Hw.
    have [_ [Et [Ew _]]] := combined_spd Hd Hsm Hfe Hy Ht Fw Hr.
    have [pairs [H1 [H2 [H3 [H4 H5]]]]] := exact_likelihood Hd Hc' Hy Hi Ep Hpp.
    exists pairs. do 4 (split; first by rewrite ?Et). rewrite Ew. have [pred [P1 P2]] := H5 _ Fw. have Fp := feasible_spread Fs.
    have [pk [Q1 Q2]] := H5 _ Fp. exists pred.
    have HK : s <> [::] by move=> E; case: Fs => _ [_]; rewrite /K E big_ord0; toR => ?; lra.
    have Ef : forall t1, List.In t1 (forecast_times LB b) -> List.In t1 (forecast_times LA s).
      move=> t1. case Es: s HK => [//|ks s1] _ Hin1. apply/(Hsm ks t1) => //. apply: Permutation_in Hp _. rewrite Es. by left.
    have G t1 u : List.In (t1, u) pairs -> exists r1, result_at LA c t1 w = Ok r1 /\ (r_mean LA r1 : 'cV[R]_n) = r_mean LB (pk t1) /\ (r_cov LA r1 : 'M[R]_n) = r_cov LB (pk t1).
      move=> Hsu. have [Hs' _] := consecutive_in _ _ _ (H2 _ _ Hsu). have := Q1 _ _ Hsu. have Sw : size w = K by case: Fs.
      rewrite Ec' (result_at_eq LB) // Ec (result_at_eq LA); last by apply: Ef. have := combined_spread t1 Sw.
      case: (combined LA s means t1 w) => [r1|]; case: (combined LB b means t1 (spread w)) => [r2|] // [E1 E2] [<-]. by exists r1.
    exists (fun t => match result_at LA c t w with Ok r1 => r1 | Raise _ => mkResult LA t 0 0 nil end).
    split; first by move=> t1 u Hsu; split; [exact: P1 Hsu|have [r1 [-> _]] := G _ _ Hsu].
    have := Ow _ Fp. rewrite P2 Q2.
    have -> : \sum_(su <- pairs) gauss_loglik (return_at LB returns su.2) (r_mean LB (pk su.1)) (r_cov LB (pk su.1)) =
      \sum_(su <- pairs) gauss_loglik (return_at LA returns su.2) (r_mean LA (match result_at LA c su.1 w with Ok r1 => r1 | Raise _ => mkResult LA su.1 0 0 nil end))
         (r_cov LA (match result_at LA c su.1 w with Ok r1 => r1 | Raise _ => mkResult LA su.1 0 0 nil end)).
      clear -G. elim: pairs G => [|[t u] l IH] G; first by rewrite !big_nil. rewrite !big_cons IH; last by move=> s' u' H; apply: (G s' u'); right.
      rewrite /=. by have [r1 [-> [-> ->]]] := G t u (or_introl erefl).
    exact: Rplus_le_reg_r.
  Qed.
End Sub.
