(** * Degenerate windows (C26). *)
From Coq Require Import Reals Lra ZArith String List Lia Permutation.
Set Warnings "-notation-overridden,-ambiguous-paths".
From mathcomp Require Import all_ssreflect all_algebra.
From Verif Require Import RStruct MatR Num Py ListFacts Combination SpecComb CombFacts CombBuild CombSolve CombRun CombProps CombItems RealLA SpecCombR CombReal CombObj CombOpt CombExact.
Set Implicit Arguments.
Unset Strict Implicit.
Unset Printing Implicit Defensive.
Import GRing.Theory.
Local Open Scope ring_scope.
Delimit Scope R_scope with re.

Section Degen.
  Context (n : nat) (sigmas : covs n) (means : option (mus n)) (returns : rets n).
  Let K := List.length sigmas.
  Let LA := RLA n K.
  Context (c : comb LA).
  Hypothesis Hd : dicts sigmas.
  Hypothesis Hc : from_sigmas LA sigmas returns means = Ok c.
  Hypothesis Hinc : increasing (forecast_times LA sigmas).
  Hypothesis Hr : returns_known LA sigmas returns.
  Hypothesis Hl : (2 <= List.length (forecast_times LA sigmas))%coq_nat.

  (** Two experts that issue the same forecasts at the lagged times of the window. *)
  Lemma identical_indefinite (pairs : list (Z * Z)) k1 k2 : (k1 < K)%N -> (k2 < K)%N -> k1 <> k2 ->
    (forall s u, List.In (s, u) pairs -> cov_of sigmas k1 s = cov_of sigmas k2 s /\
                                    mean_of means sigmas k1 s = mean_of means sigmas k2 s) ->
    l_cholK LA (pairs_quad LA sigmas means returns pairs) = None.
  Proof.
    move=> H1 H2 Hne Hsame. apply/(chol_none (quad_sym sigmas means returns pairs)) => -[_ Hp].
    pose w := mkseq (fun j => (j == k1)%:R - (j == k2)%:R : R) K.
    have Ew : forall k : 'I_K, nth 0 w k = (nat_of_ord k == k1)%:R - (nat_of_ord k == k2)%:R.
      by move=> k; rewrite nth_mkseq.
    have Hw : wvec K w != 0.
      apply/eqP => /colP /(_ (Ordinal H1)). rewrite !mxE Ew /= eqxx.
      have -> : (k1 == k2) = false by apply/eqP.
      rewrite subr0 => /eqP. by rewrite oner_eq0.
    have := Hp _ Hw. rewrite quad_gram.
    have Hsel : forall (V : lmodType R) (G : nat -> V), G k1 = G k2 -> \sum_(k < K) nth 0 w k *: G k = 0.
      move=> V G EG. rewrite (eq_bigr (fun k : 'I_K => (nat_of_ord k == k1)%:R *: G k - (nat_of_ord k == k2)%:R *: G k)) => [|k _];
        last by rewrite Ew scalerBl.
      rewrite sumrB. have Hone : forall q (Hq : (q < K)%N), \sum_(k < K) (nat_of_ord k == q)%:R *: G k = G q.
        move=> q Hq. rewrite (bigD1 (Ordinal Hq)) //= eqxx scale1r big1 ?addr0 // => k Hk.
        case: eqP => [E|_]; last by rewrite scale0r. case/eqP: Hk. exact: val_inj.
      by rewrite !Hone // EG subrr.
    have Efac : forall s k, (k < K)%N -> fac sigmas s k = match cov_of sigmas k s with
       | Some Sg => match precision_factor LA Sg with Some L => L | None => 0 end | None => 0 end.
      move=> s k Hk. rewrite /fac /factor /cov_of.
      have -> : dict_get String.eqb sigmas (fst (expert sigmas k)) = Some (snd (expert sigmas k)).
        apply: kget_in; [exact: (proj1 Hd) | by case: (expert sigmas k) (expert_in Hk)].
      by [].
    suff -> : \sum_(st <- pairs) nsq ((avgL sigmas st.1 w)^T *m ret sigmas returns st.2 - avgN sigmas means st.1 w) = 0.
      by toR => ?; lra.
    elim: pairs Hsame {Hp} => [|[s u] l IH] Hsame; first by rewrite big_nil.
    rewrite big_cons IH ?addr0; last by move=> s0 u0 Hin; apply: (Hsame s0 u0); right.
    have [Ec Em] := Hsame s u (or_introl erefl).
    have Ef : fac sigmas s k1 = fac sigmas s k2 by rewrite !Efac // Ec.
    have -> : avgL sigmas s w = 0 by apply: (Hsel _ (fac sigmas s)).
    have -> : avgN sigmas means s w = 0.
      by apply: (Hsel _ (fun k => (fac sigmas s k)^T *m mean_of means sigmas k s)); rewrite Ef Em.
    by rewrite trmx0 mul0mx subr0 /nsq mulmx0 mxE.
  Qed.

  (** Fewer scored numbers than experts. *)
  Lemma short_indefinite (pairs : list (Z * Z)) : (n * List.length pairs < K)%N ->
    l_cholK LA (pairs_quad LA sigmas means returns pairs) = None.
  Proof.
    move=> Hlt. apply/(chol_none (quad_sym sigmas means returns pairs)) => /spd_unit.
    rewrite -row_full_unit -col_leq_rank => HK.
    suff : (\rank (pairs_quad LA sigmas means returns pairs : 'M[R]_K) <= n * List.length pairs)%N.
      by move=> H; move: (leq_trans HK H); rewrite leqNgt Hlt.
    rewrite /pairs_quad. clear.
    have H : forall (f : Z * Z -> 'M[R]_(n, K)) l z, (\rank (List.fold_left (l_addK LA) (List.map (fun st => l_gram LA (f st)) l) z : 'M[R]_K)
        <= \rank (z : 'M[R]_K) + n * List.length l)%N.
      move=> f; elim=> [|a l IH] z /=; first by rewrite leq_addr.
      apply: leq_trans (IH _) _. rewrite mulnS addnA leq_add2r.
      apply: leq_trans (mxrank_add _ _) _. rewrite leq_add2l.
      apply: leq_trans (mxrankM_maxr _ _) _. exact: rank_leq_row.
    apply: leq_trans (H _ _ _) _. by rewrite mxrank0 add0n.
  Qed.

  Context (window : option nat) (times : option (list Z)).
  Hypothesis Hv : valid_times LA sigmas times.
  Let w := eff (List.length (forecast_times LA sigmas)) window.

  Theorem degenerate_run slv i : List.In i (positions (scored LA sigmas) w times) ->
    ~ spd (quad LA sigmas means returns (window_at LA sigmas w i) : 'M[R]_K) ->
    solve LA slv c window times = (nil, Some LinAlgError).
  Proof.
    move=> Hin Hq. apply: (indefinite_window_any LA _ _ _ _ _ _ _ _ Hd Hc Hinc Hr Hl Hv Hin).
    apply/chol_none => //. rewrite quad_pairs_at. exact: quad_sym.
  Qed.
  Theorem identical_run slv i k1 k2 : List.In i (positions (scored LA sigmas) w times) ->
    (k1 < K)%N -> (k2 < K)%N -> k1 <> k2 ->
    (forall s u, consecutive (forecast_times LA sigmas) s u -> List.In u (window_at LA sigmas w i) ->
       cov_of sigmas k1 s = cov_of sigmas k2 s /\ mean_of means sigmas k1 s = mean_of means sigmas k2 s) ->
    solve LA slv c window times = (nil, Some LinAlgError).
  Proof.
    move=> Hin H1 H2 Hne Hs. apply: (indefinite_window_any LA _ _ _ _ _ _ _ _ Hd Hc Hinc Hr Hl Hv Hin).
    rewrite -/w quad_pairs_at. apply: (@identical_indefinite _ k1 k2) => // s u Hsu. apply: (Hs s u).
    - exact: pairs_at_consecutive Hsu.
    - case/List.in_map_iff: Hsu => u0 [[_ <-]] //.
  Qed.
  Theorem short_run slv i : List.In i (positions (scored LA sigmas) w times) -> (n * w < K)%N ->
    solve LA slv c window times = (nil, Some LinAlgError).
  Proof.
    move=> Hin Hlt. apply: (indefinite_window_any LA _ _ _ _ _ _ _ _ Hd Hc Hinc Hr Hl Hv Hin).
    rewrite -/w quad_pairs_at. apply: short_indefinite. apply: leq_ltn_trans Hlt. rewrite leq_mul2l. apply/orP; right.
    rewrite /pairs_at List.map_length /window_at /sub. apply/leP. rewrite List.firstn_length. exact: PeanoNat.Nat.le_min_l.
  Qed.
End Degen.
