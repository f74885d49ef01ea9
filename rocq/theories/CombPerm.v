(** * Expert order (C20) and units (C28). *)
From Coq Require Import Reals Lra ZArith String List Lia Permutation.
Set Warnings "-notation-overridden,-ambiguous-paths".
From mathcomp Require Import all_ssreflect all_algebra.
From Verif Require Import RStruct MatR Num Py ListFacts Combination SpecComb CombFacts CombBuild CombSolve CombRun CombProps CombItems RealLA SpecCombR CombReal CombObj CombOpt CombExact.
Set Implicit Arguments.
Unset Strict Implicit.
Unset Printing Implicit Defensive.
Import GRing.Theory.
Local Open Scope ring_scope.
Delimit Scope R_scope with re.

(** The weight of the expert called [name] (weights are a pandas Series indexed by the expert names). *)
Definition weight_of n (s : covs n) (w : list R) (name : string) : R :=
  match dict_get String.eqb (List.combine (List.map fst s) w) name with Some x => x | None => 0 end.

(** The same weights listed in the order of [s']. *)
Definition reorder n (s s' : covs n) (w : list R) : list R := List.map (fun ks => weight_of s w (fst ks)) s'.

Lemma sum_experts (V : zmodType) n (s : covs n) (f : string * list (Z * 'M[R]_n) -> V) :
  \sum_(k < List.length s) f (expert s k) = \sum_(ks <- s) f ks.
Proof.
elim: s => [|a s IH] /=; first by rewrite big_ord0 big_nil.
by rewrite big_ord_recl big_cons -IH.
Qed.
Lemma sum_perm (V : zmodType) (T : Type) (s s' : list T) (f : T -> V) : Permutation s s' ->
  \sum_(x <- s) f x = \sum_(x <- s') f x.
Proof.
elim=> [|x l l' _ IH|x y l|l1 l2 l3 _ E1 _ E2] //; last by rewrite E1.
- by rewrite !big_cons IH.
- by rewrite !big_cons !addrA [f y + f x]addrC.
Qed.

Lemma weight_nth n (s : covs n) w k : List.NoDup (List.map fst s) -> size w = List.length s -> (k < List.length s)%N ->
  weight_of s w (fst (expert s k)) = nth 0 w k.
Proof.
rewrite /weight_of. elim: s w k => [|a s IH] [|x w] //= [|k] Hn Hs Hk /=.
  by rewrite String.eqb_refl.
have -> : String.eqb (fst (List.nth k s (EmptyString, nil))) (fst a) = false.
  apply/negP => /String.eqb_eq E. inversion Hn as [|y l Hy Hl]; subst. apply: Hy. rewrite -E.
  apply: List.in_map. apply: List.nth_In. exact/ltP.
apply: IH => //; last by case: Hs.
by inversion Hn.
Qed.

Section Perm.
  Context (n : nat) (sigmas sigmas' : covs n) (means : option (mus n)) (returns : rets n).
  Hypothesis Hd : dicts sigmas.
  Hypothesis Hpm : Permutation sigmas sigmas'.
  Let K := List.length sigmas.
  Let K' := List.length sigmas'.
  Let LA := RLA n K.
  Let LA' := RLA n K'.

  Lemma KK : K' = K. Proof. by rewrite /K /K' (Permutation_length Hpm). Qed.
  Lemma dicts' : dicts sigmas'.
  Proof.
    case: Hd => H1 H2; split.
    - apply: Permutation_NoDup H1. exact: Permutation_map.
    - exact: Permutation_Forall H2.
  Qed.
  Lemma get_perm k : dict_get String.eqb sigmas' k = dict_get String.eqb sigmas k.
  Proof.
    case E: (dict_get String.eqb sigmas k) => [d|].
    - apply: kget_in; first exact: (proj1 dicts'). apply: Permutation_in Hpm _. exact: kget_In.
    - case E': (dict_get String.eqb sigmas' k) => [d|] //. have Hin := kget_In _ _ _ E'.
      have Hin2 := Permutation_in _ (Permutation_sym Hpm) Hin. by rewrite (kget_in _ _ _ (proj1 Hd) Hin2) in E.
  Qed.
  Lemma factor_perm k t : (factor LA' sigmas' k t : 'M[R]_n) = factor LA sigmas k t.
  Proof. by rewrite /factor get_perm. Qed.

  Lemma nth_reorder w k : size w = K -> (k < K')%N -> nth 0 (reorder sigmas sigmas' w) k = weight_of sigmas w (fst (expert sigmas' k)).
  Proof. move=> Hs Hk. by rewrite /reorder (nth_expert (fun nm => weight_of sigmas w nm)). Qed.
  Lemma size_reorder w : size (reorder sigmas sigmas' w) = K'.
  Proof. by rewrite /reorder size_same List.map_length. Qed.

  Lemma sum_reorder (V : lmodType R) w (G : string -> V) : size w = K ->
    \sum_(k < K') nth 0 (reorder sigmas sigmas' w) k *: G (fst (expert sigmas' k)) =
    \sum_(k < K) nth 0 w k *: G (fst (expert sigmas k)).
  Proof.
    move=> Hs.
    rewrite (eq_bigr (fun k : 'I_K' => weight_of sigmas w (fst (expert sigmas' k)) *: G (fst (expert sigmas' k)))) => [|k _]; last by rewrite nth_reorder.
    rewrite [RHS](eq_bigr (fun k : 'I_K => weight_of sigmas w (fst (expert sigmas k)) *: G (fst (expert sigmas k)))) => [|k _];
      last by rewrite weight_nth //; case: Hd.
    rewrite (sum_experts sigmas' (fun ks => weight_of sigmas w (fst ks) *: G (fst ks))).
    rewrite (sum_experts sigmas (fun ks => weight_of sigmas w (fst ks) *: G (fst ks))).
    by apply: sum_perm; apply: Permutation_sym.
  Qed.
  Lemma avgL_perm t w : size w = K -> avgL sigmas' t (reorder sigmas sigmas' w) = avgL sigmas t w.
  Proof.
    move=> Hs. rewrite /avgL /avg_factor /fac.
    rewrite -(sum_reorder (fun k => factor LA sigmas k t : 'M[R]_n)) //.
    by apply: eq_bigr => k _; rewrite -factor_perm.
  Qed.
  Lemma avgN_perm t w : size w = K -> avgN sigmas' means t (reorder sigmas sigmas' w) = avgN sigmas means t w.
  Proof.
    move=> Hs. rewrite /avgN /avg_nu /fac.
    rewrite -[RHS](sum_reorder (fun k => (factor LA sigmas k t : 'M[R]_n)^T *m mean_at LA means k t : 'cV[R]_n)) //.
    by apply: eq_bigr => k _; rewrite -factor_perm.
  Qed.
  Lemma feasible_perm w : feasible K w -> feasible K' (reorder sigmas sigmas' w).
  Proof.
    move=> [Hs [H0 H1]]. split; first exact: size_reorder. split.
    - move=> k Hk. rewrite nth_reorder //.
      have Hin : List.In (expert sigmas' k) sigmas.
        apply: Permutation_in (Permutation_sym Hpm) _. exact: expert_in.
      have [j [Hj Ej]] := List.In_nth _ _ (EmptyString, nil) Hin.
      have Hj' : (j < K)%N by apply/ltP.
      rewrite -Ej -/(expert sigmas j) weight_nth //; [exact: H0 | by case: Hd].
    - have := sum_reorder (V := [lmodType R of R^o]) (fun _ => 1) Hs.
      rewrite /GRing.scale /=. under eq_bigr do rewrite mulr1. under [X in _ = X -> _]eq_bigr do rewrite mulr1.
      by rewrite H1.
  Qed.
End Perm.

Lemma reorder_reorder n (s s' : covs n) w : dicts s -> Permutation s s' -> size w = List.length s ->
  reorder s' s (reorder s s' w) = w.
Proof.
move=> Hd Hp Hw. apply: (@eq_from_nth _ 0); first by rewrite size_reorder.
move=> k; rewrite size_reorder => Hk.
have Hd' := dicts' Hd Hp.
rewrite nth_reorder //; last by rewrite size_reorder.
have Hin : List.In (expert s k) s' by apply: (Permutation_in _ Hp); apply: expert_in.
have [j [Hj Ej]] := List.In_nth _ _ (EmptyString, nil) Hin. have Hj' : (j < List.length s')%N by apply/ltP.
rewrite -[X in fst X]Ej -/(expert s' j) weight_nth //; [|by case: Hd'|by rewrite size_reorder].
rewrite nth_reorder //. have -> : expert s' j = expert s k by exact: Ej.
by rewrite weight_nth //; case: Hd.
Qed.

Lemma increasing_head (a : Z) l : increasing (a :: l) -> forall x, List.In x l -> Z.lt a x.
Proof.
elim: l a => [|b l IH] a // [H1 H2] x [<-|Hx] //. have := IH _ H2 _ Hx. exact: Z.lt_trans.
Qed.
Lemma increasing_eq (l l' : list Z) : increasing l -> increasing l' -> (forall x, List.In x l <-> List.In x l') -> l = l'.
Proof.
elim: l l' => [|a l IH] [|b l'] // H1 H2 H.
- by case: (proj2 (H b) (or_introl erefl)).
- by case: (proj1 (H a) (or_introl erefl)).
have Ha := increasing_head H1. have Hb := increasing_head H2.
have E : a = b.
  have [->//|Ha'] := proj1 (H a) (or_introl erefl).
  have [//|Hb'] := proj2 (H b) (or_introl erefl).
  have := Ha _ Hb'; have := Hb _ Ha'. lia.
subst b. congr cons. apply: IH.
- by case: l H1 {H Ha} => //= x l [].
- by case: l' H2 {H Hb} => //= x l' [].
- move=> x; split=> Hx.
  + have [E|//] := proj1 (H x) (or_intror Hx). have := Ha _ Hx. lia.
  + have [E|//] := proj2 (H x) (or_intror Hx). have := Hb _ Hx. lia.
Qed.

Lemma weight_of_none n (s : covs n) w name : ~ List.In name (List.map fst s) -> weight_of s w name = 0.
Proof.
move=> H. rewrite /weight_of. have -> : dict_get String.eqb (List.combine (List.map fst s) w) name = None.
  apply/kget_none => Hin. apply: H. case/in_map_iff: Hin => -[a b] [/= <- Hin]. exact: List.in_combine_l Hin.
by [].
Qed.
Lemma in_keys n (s : covs n) name : List.In name (List.map fst s) -> exists k, (k < List.length s)%N /\ name = fst (expert s k).
Proof.
case/in_map_iff => ks [<- Hin]. have [k [Hk Ek]] := List.In_nth _ _ (EmptyString, nil) Hin.
exists k; split; [exact/ltP | by rewrite /expert Ek].
Qed.
Lemma weight_reorder n (s s' : covs n) w name : dicts s -> Permutation s s' -> size w = List.length s ->
  weight_of s' (reorder s s' w) name = weight_of s w name.
Proof.
move=> Hd Hp Hw. case: (List.in_dec string_dec name (List.map fst s')) => Hin.
- have [k [Hk ->]] := in_keys Hin. rewrite weight_nth ?size_reorder //; last exact: (proj1 (dicts' Hd Hp)).
  by rewrite nth_reorder.
- rewrite !weight_of_none // => H. apply: Hin. apply: Permutation_in H. exact: Permutation_map.
Qed.

Section PermRun.
  Context (n : nat) (sigmas sigmas' : covs n) (means : option (mus n)) (returns : rets n).
  Let K := List.length sigmas.
  Let K' := List.length sigmas'.
  Let LA := RLA n K.
  Let LA' := RLA n K'.
  Context (c : comb LA) (c' : comb LA').
  Hypothesis Hd : dicts sigmas.
  Hypothesis Hpm : Permutation sigmas sigmas'.
  Hypothesis Hc : from_sigmas LA sigmas returns means = Ok c.
  Hypothesis Hc' : from_sigmas LA' sigmas' returns means = Ok c'.
  Hypothesis Hy : all_sym sigmas.
  Hypothesis Hi : forall ks, List.In ks sigmas -> increasing (List.map fst (snd ks)).

  Lemma perm_times : forecast_times LA' sigmas' = forecast_times LA sigmas.
  Proof.
    have [Hst _] := from_sigmas_inv LA _ _ _ _ Hd Hc.
    case E: sigmas' => [|ks' s'].
      have : sigmas = [::] by apply: Permutation_nil; rewrite -E; apply: Permutation_sym.
      by move=> ->.
    rewrite /=. have Hin : List.In ks' sigmas by apply: (Permutation_in _ (Permutation_sym Hpm)); rewrite E; left.
    apply: increasing_eq.
    - exact: Hi.
    - rewrite /forecast_times. case E': sigmas => [//|ks s]; apply: Hi; rewrite E'; by left.
    - move=> x. exact: Hst.
  Qed.

  Lemma term_perm w st : size w = K -> term sigmas' means returns (reorder sigmas sigmas' w) st = term sigmas means returns w st.
  Proof. move=> Hw. by rewrite /term avgL_perm // avgN_perm. Qed.

  Theorem perm_run slv slv' window times items items' :
    returns_optimal slv -> returns_optimal slv' ->
    solve LA slv c window times = (items, None) -> solve LA' slv' c' window times = (items', None) ->
    List.length items = List.length items' /\
    forall j r r', List.nth_error items j = Some (Some r) -> List.nth_error items' j = Some (Some r') ->
      r_time LA r = r_time LA' r' /\ (r_mean LA r : 'cV[R]_n) = r_mean LA' r' /\ (r_cov LA r : 'M[R]_n) = r_cov LA' r' /\
      forall name, weight_of sigmas (r_weights LA r) name = weight_of sigmas' (r_weights LA' r') name.
  Proof.
    move=> Ho Ho' Hs Hs'.
    have Hd' := dicts' Hd Hpm.
    have Hinc : increasing (forecast_times LA sigmas).
      rewrite /forecast_times. case E': sigmas => [//|ks s]; apply: Hi; rewrite E'; by left.
    have Hinc' : increasing (forecast_times LA' sigmas') by rewrite perm_times.
    have [L1 [R1 N1]] := solve_run LA _ _ _ _ _ _ _ _ Hd Hc Hinc Hs.
    have [L2 [R2 N2]] := solve_run LA' _ _ _ _ _ _ _ _ Hd' Hc' Hinc' Hs'.
    have Esc : scored LA' sigmas' = scored LA sigmas by rewrite /scored perm_times.
    rewrite perm_times Esc in L2 R2 N2.
    split; first by rewrite L1 L2.
    move=> j r r' Hj Hj'.
    have Hjl : (j < List.length (positions (scored LA sigmas) (eff (List.length (forecast_times LA sigmas)) window) times))%coq_nat.
      rewrite -L1. apply/List.nth_error_Some. by rewrite Hj.
    case El: (List.nth_error (positions (scored LA sigmas) (eff (List.length (forecast_times LA sigmas)) window) times) j) => [i|];
      last by move/List.nth_error_Some: Hjl; rewrite El.
    have [h [p [Ep Hp]]] := N1 _ _ El. have [h' [p' [Ep' Hp']]] := N2 _ _ El.
    set w := eff _ _ in Ep Ep'.
    have Epr : pairs_at LA' sigmas' w i = pairs_at LA sigmas w i.
      by rewrite /pairs_at /window_at Esc perm_times.
    have [_ [A1 P1]] := posed_at LA _ _ _ _ _ _ _ Ep.
    have [_ [A2 P2]] := posed_at LA' _ _ _ _ _ _ _ Ep'.
    rewrite Epr in A2 P2. set pairs := pairs_at LA sigmas w i in A1 P1 A2 P2.
    case Ex: (slv h p) Hp => [x|]; last by rewrite Hj.
    case Ex': (slv' h' p') Hp' => [x'|]; last by rewrite Hj'.
    move=> [r1' [Hr' Ej']] [r1 [Hr Ej]].
    have E1 : r1 = r by move: Ej; rewrite Hj => -[].
    have E2 : r1' = r' by move: Ej'; rewrite Hj' => -[].
    subst r1 r1'.
    have O1 := Ho _ _ _ Ex. have O2 := Ho' _ _ _ Ex'.
    have Ep1 : p = (pairs_diag LA sigmas pairs, snd p) by rewrite -A1; case: (p).
    have Ep2 : p' = (pairs_diag LA' sigmas' pairs, snd p') by rewrite -A2; case: (p').
    have Fx : feasible K x by case: O1. have Sx : size x = K by case: Fx.
    have HK : (0 < K)%N.
      rewrite lt0n; apply/eqP => E. case: Fx => _ [_]; rewrite E big_ord0; toR => ?; lra.
    have HK' : (0 < K')%N by rewrite /K' -(Permutation_length Hpm).
    have Eobj : forall v, size v = K -> objective (rows_of p') p' (reorder sigmas sigmas' v) = objective (rows_of p) p v.
      move=> v Hv. rewrite Ep1 Ep2 (objective_closed _ HK P1) (objective_closed _ HK' P2).
      by apply: eq_bigr => st _; rewrite term_perm.
    have Hpm' := Permutation_sym Hpm.
    have O3 : optimal p' (reorder sigmas sigmas' x).
      split; first exact: feasible_perm.
      move=> v Fv. have Sv : size v = K' by case: Fv.
      have Fr := feasible_perm Hd' Hpm' Fv.
      rewrite -(reorder_reorder Hd' Hpm' Sv) !Eobj ?size_reorder //.
      case: O1 => _. exact.
    have Hy' : all_sym sigmas'.
      by move=> ks tS Hks; apply: Hy; apply: (Permutation_in _ Hpm').
    have Hl' : lagged_ok sigmas' pairs.
      apply: (lagged_pairs Hd' Hc' Hy') => s u. rewrite /pairs -Epr. exact: pairs_at_consecutive.
    have Exx : x' = reorder sigmas sigmas' x.
      rewrite Ep2 in O2 O3. exact: opt_unique Hl' P2 O2 O3.
    have Et : r_time LA r = List.nth i (scored LA sigmas) Z0 by case: (combined_time LA _ _ _ _ _ Hr).
    have Et' : r_time LA' r' = List.nth i (scored LA sigmas) Z0 by case: (combined_time LA' _ _ _ _ _ Hr').
    rewrite Et Et'. split=> //. move: Hr Hr'.
    rewrite combined_real // combined_real; last by rewrite Exx size_reorder.
    cbv zeta. rewrite -!/(avgL _ _ _) -!/(avgN _ _ _ _) Exx avgL_perm // avgN_perm //.
    case: ifP => // Hu [<-] [<-] /=. split=> //. split=> // name. by rewrite weight_reorder.
  Qed.
End PermRun.
