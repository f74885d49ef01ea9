(** * The exact theorems about runs of solve(). *)
From Coq Require Import Reals Lra ZArith String List Lia Permutation.
Set Warnings "-notation-overridden,-ambiguous-paths".
From mathcomp Require Import all_ssreflect all_algebra.
From Verif Require Import RStruct MatR Num Py ListFacts Combination SpecComb CombFacts CombBuild CombSolve CombRun CombProps CombItems RealLA SpecCombR CombReal CombObj CombOpt.
Set Implicit Arguments.
Unset Strict Implicit.
Unset Printing Implicit Defensive.
Import GRing.Theory.
Local Open Scope ring_scope.
Delimit Scope R_scope with re.

Section Exact.
  Context (n : nat) (sigmas : covs n) (means : option (mus n)) (returns : rets n).
  Let K := List.length sigmas.
  Let LA := RLA n K.
  Context (c : comb LA).
  Hypothesis Hd : dicts sigmas.
  Hypothesis Hc : from_sigmas LA sigmas returns means = Ok c.
  Hypothesis Hy : all_sym sigmas.

  Let Hinv := from_sigmas_inv LA sigmas returns means c Hd Hc.

  (** C16 *)
  Theorem exact_cov slv window times items ex r :
    returns_feasible slv -> solve LA slv c window times = (items, ex) -> List.In (Some r) items ->
    spd (r_cov LA r) /\ feasible K (r_weights LA r) /\
    exists F, factors_at sigmas (r_time LA r) F /\
      invmx (r_cov LA r) = avg_factor K F (r_weights LA r) *m (avg_factor K F (r_weights LA r))^T /\
      (avg_factor K F (r_weights LA r))^T *m r_mean LA r =
        avg_nu K F (fun k => mean_of means sigmas k (r_time LA r)) (r_weights LA r).
  Proof.
    move=> Hf Hs Hin. have [h [t [p [w [Hw [Ht Hr]]]]]] := solve_items LA _ _ _ _ _ _ _ _ _ _ Hd Hc Hs Hin.
    case: Hinv => Hst [Hfe _]. have Fw := Hf _ _ _ Hw.
    have [H1 [H2 [H3 H4]]] := combined_spd Hd Hst Hfe Hy Ht Fw Hr.
    by rewrite H2 H3.
  Qed.

  (** The loop never raises when the weights are feasible. *)
  Theorem exact_no_raise slv window times todo :
    returns_feasible slv -> increasing (forecast_times LA sigmas) -> prepare LA c window times = Ok todo ->
    exists items, solve LA slv c window times = (items, None).
  Proof.
    move=> Hf Hi Hp. rewrite /solve Hp. case: Hinv => Hst [Hfe [Hmo Ec]].
    move: Hp. rewrite Ec => Hp.
    have [Hr [Hl [Hw [El Hil]]]] := prepare_posed LA _ _ _ _ _ _ Hd Hi Hp.
    have Ht : List.Forall (fun tp => List.In (fst tp) (forecast_times LA sigmas)) todo.
      apply: posed_times El => i Hin. by case: (Hil i Hin).
    elim: todo [::] Ht {Hp El} => [|[t p] todo IH] h Ht /=; first by eexists.
    have {Ht} [Ht1 Ht2] : List.In t (forecast_times LA sigmas) /\ List.Forall (fun tp => List.In (fst tp) (forecast_times LA sigmas)) todo.
      by inversion Ht; subst.
    case Es: (slv h p) => [w|]; last by case: (IH (h ++ [:: p])%SEQ Ht2) => items ->; eexists.
    have [r Er] := combined_some means Hd Hst Hfe Hy Ht1 (Hf _ _ _ Es).
    rewrite (result_at_eq LA) // Er /=. by case: (IH (h ++ [:: p])%SEQ Ht2) => items ->; eexists.
  Qed.

  (** C22 *)
  Theorem exact_agree slv window times items ex r S m :
    (forall h p w, slv h p = Some w -> size w = K /\ \sum_(k < K) nth 0 w k = 1) ->
    solve LA slv c window times = (items, ex) -> List.In (Some r) items ->
    (forall k, (k < K)%N -> cov_of sigmas k (r_time LA r) = Some S /\ mean_of means sigmas k (r_time LA r) = m) ->
    r_cov LA r = S /\ r_mean LA r = m.
  Proof.
    move=> Hf Hs Hin. have [h [t [p [w [Hw [Ht Hr]]]]]] := solve_items LA _ _ _ _ _ _ _ _ _ _ Hd Hc Hs Hin.
    case: Hinv => Hst [Hfe _]. case: (Hf _ _ _ Hw) => F1 F2.
    have Et : r_time LA r = t by case: (combined_time LA _ _ _ _ _ Hr).
    rewrite Et => Hag. exact: combined_agree Hd Hst Hfe Hy Ht F1 F2 Hag Hr.
  Qed.

  (** C29 *)
  Theorem exact_zero_mean slv window times items ex r :
    (forall h p w, slv h p = Some w -> size w = K) ->
    solve LA slv c window times = (items, ex) -> List.In (Some r) items ->
    (forall k, (k < K)%N -> mean_of means sigmas k (r_time LA r) = 0) -> r_mean LA r = 0.
  Proof.
    move=> Hf Hs Hin. have [h [t [p [w [Hw [Ht Hr]]]]]] := solve_items LA _ _ _ _ _ _ _ _ _ _ Hd Hc Hs Hin.
    have Et : r_time LA r = t by case: (combined_time LA _ _ _ _ _ Hr).
    rewrite Et => Hz. exact: combined_zero_mean (Hf _ _ _ Hw) Hz Hr.
  Qed.

  Lemma lagged_pairs pairs : (forall s u, List.In (s, u) pairs -> consecutive (forecast_times LA sigmas) s u) ->
    lagged_ok sigmas pairs.
  Proof.
    move=> H [s u] Hst k Hk /=. case: Hinv => Hsm [Hfe _].
    have [Hs _] := consecutive_in _ _ _ (H _ _ Hst).
    by case: (fac_spec Hd Hsm Hfe Hy Hs Hk) => S [_ [_ [H1 [H2 _]]]].
  Qed.

  Hypothesis Hi : increasing (forecast_times LA sigmas).

  (** C19 *)
  Theorem exact_likelihood window times todo t p :
    prepare LA c window times = Ok todo -> List.In (t, p) todo ->
    exists pairs, List.length pairs = eff (List.length (forecast_times LA sigmas)) window /\
      (forall s u, List.In (s, u) pairs -> consecutive (forecast_times LA sigmas) s u) /\
      (exists a, List.map snd pairs = sub (scored LA sigmas) a (List.length pairs)) /\ List.last (List.map snd pairs) Z0 = t /\
      forall w, feasible K w -> exists pred,
        (forall s u, List.In (s, u) pairs -> result_at LA c s w = Ok (pred s)) /\
        objective (rows_of p) p w =
        (\sum_(su <- pairs) gauss_loglik (return_at LA returns su.2) (r_mean LA (pred su.1)) (r_cov LA (pred su.1))
         + INR (n * List.length pairs) / 2 * ln (2 * PI))%re.
  Proof.
    move=> Hp Hin. have [pairs [H1 [H2 [H3 [H4 [H5 [H6 H7]]]]]]] := prepare_pairs LA _ _ _ _ _ _ _ _ _ Hd Hc Hi Hp Hin.
    exists pairs; do 4 split=> //. move=> w Fw.
    case: Hinv => Hsm [Hfe [_ Ec]].
    have HK : (0 < K)%N.
      rewrite lt0n; apply/eqP => E. case: Fw => _ [_]; rewrite E big_ord0; toR => ?; lra.
    have Hl := lagged_pairs H2.
    exists (fun s => mkResult LA s (invmx (avgL sigmas s w)^T *m avgN sigmas means s w)
                       (invmx (avgL sigmas s w *m (avgL sigmas s w)^T)) w).
    split.
      move=> s u Hsu. have [Hs _] := consecutive_in _ _ _ (H2 _ _ Hsu).
      rewrite Ec (result_at_eq LA) // combined_real; last by case: Fw.
      cbv zeta. rewrite avg_unit //.
      - by move=> k Hk; case: (Hl _ Hsu k Hk).
      - by move=> k i Hk; case: (Hl _ Hsu k Hk).
    have Ep : p = (pairs_diag LA sigmas pairs, snd p) by rewrite -H6; case: (p).
    rewrite Ep (objective_closed w HK H7) /= H1 -H1. clear -Hl Fw.
    elim: pairs Hl => [|[s u] l IH] Hl.
      rewrite !big_nil muln0 /=. toR. eqR. field.
    rewrite !big_cons IH; last by move=> st Hst; apply: Hl; right.
    have G : gauss_loglik (return_at LA returns u) (invmx (avgL sigmas s w)^T *m avgN sigmas means s w)
         (invmx (avgL sigmas s w *m (avgL sigmas s w)^T)) = (term sigmas means returns w (s, u) - INR n / 2 * ln (2 * PI))%re.
      rewrite gauss_term //.
      - by apply: avg_trig => k Hk; case: (Hl (s, u) (or_introl erefl) k Hk).
      - by move=> i; apply: avg_diag_pos => // k j Hk; case: (Hl (s, u) (or_introl erefl) k Hk).
    rewrite /= G. have -> : INR (n * (List.length l).+1) = (INR n + INR (n * List.length l))%re by rewrite mulnS -plus_INR.
    move: (term _ _ _ _ _) => B. move: (\sum_(j <- l) _)%re => A. toR. eqR. field.
  Qed.

  (** C20, first half *)
  Theorem exact_unique window times todo t p w1 w2 :
    prepare LA c window times = Ok todo -> List.In (t, p) todo -> optimal p w1 -> optimal p w2 -> w1 = w2.
  Proof.
    move=> Hp Hin. have [pairs [H1 [H2 [H3 [H4 [H5 [H6 H7]]]]]]] := prepare_pairs LA _ _ _ _ _ _ _ _ _ Hd Hc Hi Hp Hin.
    have Ep : p = (pairs_diag LA sigmas pairs, snd p) by rewrite -H6; case: (p).
    rewrite Ep. apply: opt_unique => //. exact: lagged_pairs. exact: H7.
  Qed.
End Exact.
