(** * The objective in closed form, the likelihood, uniqueness of the optimum. *)
From Coq Require Import Reals Lra ZArith String List Lia.
Set Warnings "-notation-overridden,-ambiguous-paths".
From mathcomp Require Import all_ssreflect all_algebra.
From Verif Require Import RStruct MatR Num Py ListFacts Combination SpecComb CombFacts CombBuild CombSolve CombRun CombProps CombItems RealLA SpecCombR CombReal.
Set Implicit Arguments.
Unset Strict Implicit.
Unset Printing Implicit Defensive.
Import GRing.Theory.
Local Open Scope ring_scope.
Delimit Scope R_scope with re.

Section Obj.
  Context (n : nat) (sigmas : covs n) (means : option (mus n)) (returns : rets n).
  Let K := List.length sigmas.
  Let LA := RLA n K.

  Definition avgL (s : Z) (w : list R) : 'M[R]_n := avg_factor K (fac sigmas s) w.
  Definition avgN (s : Z) (w : list R) : 'cV[R]_n := avg_nu K (fac sigmas s) (fun k => mean_of means sigmas k s) w.
  Definition ret (u : Z) : 'cV[R]_n := return_at LA returns u.
  Definition term (w : list R) (st : Z * Z) : R :=
    (\sum_(i < n) ln (avgL st.1 w i i) - (/ 2)%re * nsq ((avgL st.1 w)^T *m ret st.2 - avgN st.1 w))%R.

  Lemma size_diags (L : 'M[R]_n) : size [seq L i i | i <- enum 'I_n] = n.
  Proof. by rewrite size_map size_enum_ord. Qed.
  Lemma nth_diags (L : 'M[R]_n) (i : 'I_n) : nth 0 [seq L i i | i <- enum 'I_n] i = L i i.
  Proof. by rewrite (nth_map i) ?size_enum_ord // nth_ord_enum. Qed.
  Lemma size_diagcol (F : Z * Z -> 'M[R]_n) pairs :
    size (List.concat (List.map (fun st => [seq F st i i | i <- enum 'I_n]) pairs)) = (List.length pairs * n)%N.
  Proof. by elim: pairs => //= a l IH; rewrite size_cat size_diags IH mulSn. Qed.

  Lemma diag_rows (F : nat -> Z * Z -> 'M[R]_n) w pairs :
    \sum_(j < List.length pairs * n)
       ln (\sum_(k < K) nth 0 (List.concat (List.map (fun st => [seq F k st i i | i <- enum 'I_n]) pairs)) j * nth 0 w k)
    = \sum_(st <- pairs) \sum_(i < n) ln (avg_factor K (fun k => F k st) w i i).
  Proof.
    elim: pairs => [|a l IH] /=; first by rewrite mul0n big_ord0 big_nil.
    rewrite mulSn big_split_ord big_cons /=; congr (_ + _).
    - apply: eq_bigr => i _; congr ln. rewrite /avg_factor summxE. apply: eq_bigr => k _.
      by rewrite nth_cat size_diags ltn_ord nth_diags mxE mulrC.
    - rewrite -IH. apply: eq_bigr => j _; congr ln. apply: eq_bigr => k _.
      by rewrite nth_cat size_diags ltnNge leq_addr /= addKn.
  Qed.

  Lemma nth_expert (T : Type) (f : string -> T) (d : T) k : (k < K)%N ->
    nth d (List.map (fun ks => f (fst ks)) sigmas) k = f (fst (expert sigmas k)).
  Proof.
    move=> /ltP Hk. rewrite -nth_same. rewrite (@List.nth_indep _ _ k d (f (fst (EmptyString, @nil (Z * 'M[R]_n))))).
      by rewrite (List.map_nth (fun ks => f (fst ks))).
    by rewrite List.map_length.
  Qed.

  Lemma pairs_diag_rows w pairs :
    \sum_(j < List.length pairs * n)
       ln (\sum_(k < K) nth 0 (nth [::] (pairs_diag LA sigmas pairs) k) j * nth 0 w k)
    = \sum_(st <- pairs) \sum_(i < n) ln (avgL st.1 w i i).
  Proof.
    rewrite -(diag_rows (fun k st => fac sigmas st.1 k) w pairs). apply: eq_bigr => j _; congr ln.
    apply: eq_bigr => k _. congr (_ * _). rewrite /pairs_diag. 
    by rewrite (nth_expert (fun nm => List.concat (List.map (fun st => l_diag LA (factor LA sigmas nm (fst st))) pairs))).
  Qed.

  Lemma colstack_mul (w : list R) (f : string -> 'cV[R]_n) :
    (l_colstack LA (List.map (fun ks => f (fst ks)) sigmas) : 'M[R]_(n, K)) *m wvec K w =
    \sum_(k < K) nth 0 w k *: f (fst (expert sigmas k)).
  Proof.
    apply/colP => i. rewrite mxE summxE. apply: eq_bigr => k _.
    by rewrite !mxE (nth_expert f) // mulrC.
  Qed.

  Lemma quad_gram w pairs :
    qf (pairs_quad LA sigmas means returns pairs : 'M[R]_K) (wvec K w) =
    \sum_(st <- pairs) nsq ((avgL st.1 w)^T *m ret st.2 - avgN st.1 w).
  Proof.
    rewrite /pairs_quad.
    have -> : forall z, List.fold_left (l_addK LA) (List.map (fun st => l_gram LA (l_colstack LA (List.map (fun ks =>
          l_vsub LA (l_tmulv LA (factor LA sigmas (fst ks) (fst st)) (return_at LA returns (snd st)))
                    (l_tmulv LA (factor LA sigmas (fst ks) (fst st)) (mean_at LA means (fst ks) (fst st)))) sigmas))) pairs) z
       = z + \sum_(st <- pairs) ((l_colstack LA (List.map (fun ks =>
          l_vsub LA (l_tmulv LA (factor LA sigmas (fst ks) (fst st)) (return_at LA returns (snd st)))
                    (l_tmulv LA (factor LA sigmas (fst ks) (fst st)) (mean_at LA means (fst ks) (fst st)))) sigmas))^T *m
          l_colstack LA (List.map (fun ks =>
          l_vsub LA (l_tmulv LA (factor LA sigmas (fst ks) (fst st)) (return_at LA returns (snd st)))
                    (l_tmulv LA (factor LA sigmas (fst ks) (fst st)) (mean_at LA means (fst ks) (fst st)))) sigmas)).
      elim: pairs => [|a l IH] z /=; first by rewrite big_nil addr0.
      by rewrite IH big_cons addrA.
    rewrite add0r /qf mulmx_sumr mulmx_suml summxE. apply: eq_bigr => st _.
    have := qf_gram (l_colstack LA (List.map (fun ks =>
          l_vsub LA (l_tmulv LA (factor LA sigmas (fst ks) (fst st)) (return_at LA returns (snd st)))
                    (l_tmulv LA (factor LA sigmas (fst ks) (fst st)) (mean_at LA means (fst ks) (fst st)))) sigmas)
          : 'M[R]_(n, K)) (wvec K w).
    rewrite /qf => ->. congr nsq.
    rewrite (colstack_mul w (fun nm => l_vsub LA (l_tmulv LA (factor LA sigmas nm (fst st)) (return_at LA returns (snd st)))
                    (l_tmulv LA (factor LA sigmas nm (fst st)) (mean_at LA means nm (fst st))))).
    rewrite /avgL /avgN /avg_factor /avg_nu linear_sum /= mulmx_suml -sumrB.
    apply: eq_bigr => k _. rewrite /= scalerBr. congr (_ - _). by rewrite linearZ /= -scalemxAl.
  Qed.

  Lemma quad_sym pairs : sym (pairs_quad LA sigmas means returns pairs : 'M[R]_K).
  Proof.
    rewrite /pairs_quad /sym.
    have H : forall z, z^T = z -> forall l, (List.fold_left (l_addK LA) (List.map (fun st => l_gram LA (l_colstack LA (List.map (fun ks =>
          l_vsub LA (l_tmulv LA (factor LA sigmas (fst ks) (fst st)) (return_at LA returns (snd st)))
                    (l_tmulv LA (factor LA sigmas (fst ks) (fst st)) (mean_at LA means (fst ks) (fst st)))) sigmas))) l) z)^T =
       (List.fold_left (l_addK LA) (List.map (fun st => l_gram LA (l_colstack LA (List.map (fun ks =>
          l_vsub LA (l_tmulv LA (factor LA sigmas (fst ks) (fst st)) (return_at LA returns (snd st)))
                    (l_tmulv LA (factor LA sigmas (fst ks) (fst st)) (mean_at LA means (fst ks) (fst st)))) sigmas))) l) z).
      move=> z Hz l. elim: l z Hz => [|a l IH] z Hz //=. apply: IH.
      by rewrite linearD /= Hz trmx_mul trmxK.
    by apply: H; rewrite trmx0.
  Qed.

  Lemma rows_of_pairs pairs P : (0 < K)%N -> rows_of (n := n) (K := K) (pairs_diag LA sigmas pairs, P) = (List.length pairs * n)%N.
  Proof.
    move=> HK. rewrite /rows_of -nth0 /=.
    rewrite (nth_expert (fun nm => List.concat (List.map (fun st => l_diag LA (factor LA sigmas nm (fst st))) pairs))) //.
    exact: (size_diagcol (fun st => factor LA sigmas _ (fst st))).
  Qed.

  Lemma objective_closed pairs P w : (0 < K)%N ->
    l_cholK LA (pairs_quad LA sigmas means returns pairs) = Some P ->
    objective (n := n) (K := K) (rows_of (pairs_diag LA sigmas pairs, P)) (pairs_diag LA sigmas pairs, P) w
    = \sum_(st <- pairs) term w st.
  Proof.
    move=> HK HP. rewrite /objective rows_of_pairs // pairs_diag_rows /=.
    have [_ [_ E]] := chol_is_chol (quad_sym pairs) HP.
    have -> : nsq ((P : 'M[R]_K)^T *m wvec K w) = qf (pairs_quad LA sigmas means returns pairs) (wvec K w).
      by rewrite -E /qf /nsq trmx_mul trmxK !mulmxA.
    by rewrite quad_gram mulr_sumr -sumrB.
  Qed.
End Obj.
