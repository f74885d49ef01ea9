(** * The optimum exists (C20). *)
From Coq Require Import Reals Lra ZArith String List Lia.
Set Warnings "-notation-overridden,-ambiguous-paths".
From mathcomp Require Import all_ssreflect all_algebra.
From Verif Require Import RStruct MatR Spec Simplex Num Py ListFacts Combination SpecComb CombFacts CombBuild CombSolve CombRun CombProps CombItems RealLA SpecCombR CombReal CombObj CombOpt CombExact.
Set Implicit Arguments.
Unset Strict Implicit.
Unset Printing Implicit Defensive.
Import GRing.Theory.
Local Open Scope ring_scope.
Delimit Scope R_scope with re.

Lemma rsumE K (f : nat -> R) : rsum K f = \sum_(k < K) f k.
Proof. by elim: K => [|K IH] /=; rewrite ?big_ord0 // big_ord_recr /= IH. Qed.

Section Exist.
  Context (n K : nat) (p : problem (RLA n K)).
  Definition A_ (j k : nat) : R := nth 0 (nth [::] p.1 k) j.
  Definition C_ (i : 'I_K) (k : nat) : R := if insub k is Some k' then (p.2 : 'M[R]_K) k' i else 0.
  Definition objF (w : nat -> R) : R :=
    (rsum (rows_of p) (fun j => ln (rsum K (fun k => A_ j k * w k))) +
     (- / 2) * rsum K (fun i => (if insub i is Some i' then rsum K (fun k => C_ i' k * w k) else 0) *
                            (if insub i is Some i' then rsum K (fun k => C_ i' k * w k) else 0)))%re.

  Lemma objF_eq w : objective (rows_of p) p (mkseq w K) = objF w.
  Proof.
    rewrite /objective /objF.
    have E1 : \sum_(j < rows_of p) ln (\sum_(k < K) nth 0 (nth [::] p.1 k) j * nth 0 (mkseq w K) k) =
              rsum (rows_of p) (fun j => ln (rsum K (fun k => A_ j k * w k))).
      rewrite rsumE. apply: eq_bigr => j _; congr ln. rewrite rsumE. apply: eq_bigr => k _. by rewrite nth_mkseq.
    have E2 : nsq ((p.2 : 'M[R]_K)^T *m wvec K (mkseq w K)) =
       rsum K (fun i => (if insub i is Some i' then rsum K (fun k => C_ i' k * w k) else 0) *
                            (if insub i is Some i' then rsum K (fun k => C_ i' k * w k) else 0)).
      rewrite nsqE rsumE. apply: eq_bigr => i _. rewrite valK.
      have -> : ((p.2 : 'M[R]_K)^T *m wvec K (mkseq w K)) i 0 = rsum K (fun k => C_ i k * w k); last by [].
      rewrite mxE rsumE. apply: eq_bigr => k _. by rewrite !mxE /C_ valK nth_mkseq.
    rewrite E1 E2. move: (rsum _ _) (rsum _ _) => a b. toR. eqR. ring.
  Qed.

  Hypothesis HA : forall k j, (k < K)%N -> (j < rows_of p)%N -> (0 < A_ j k)%re.
  Hypothesis HK : (0 < K)%N.

  Lemma lin_pos w j : simplex K w -> (j < rows_of p)%N -> (0 < rsum K (fun k => A_ j k * w k))%re.
  Proof.
    move=> [H0 H1] Hj. rewrite rsumE.
    have [k Hk] : exists k : 'I_K, (0 < w k)%re.
      apply: Classical_Prop.NNPP => Hn. move: H1; rewrite rsumE big1; first by toR; lra.
      move=> k _. apply: Rle_antisym; last by apply: H0; apply/ltP.
      by apply: Rnot_lt_le => Hlt; apply: Hn; exists k.
    apply: (@sumR_gt0 _ _ k).
    - move=> k'. toR. apply: Rmult_le_pos; last by apply: H0; apply/ltP. apply/Rlt_le. exact: HA.
    - toR. apply: Rmult_lt_0_compat => //. exact: HA.
  Qed.

  Lemma objF_cont w : simplex K w -> cont K objF w.
  Proof.
    move=> Hw. rewrite /objF. apply: cont_plus.
    - apply: cont_rsum => j /ltP Hj. apply: cont_ln; last exact: lin_pos.
      exact: (@cont_lin K w (A_ j)).
    - apply: cont_scal. apply: cont_rsum => i Hi. case: insubP => [i' _ _|_]; last exact: cont_const.
      apply: cont_sq. exact: cont_lin.
  Qed.

  Lemma feasible_mkseq w : feasible K (mkseq w K) <-> simplex K w.
  Proof.
    rewrite /feasible /simplex size_mkseq rsumE. split.
    - move=> [_ [H0 H1]]. split.
      + move=> k /ltP Hk. by have := H0 k Hk; rewrite nth_mkseq.
      + rewrite -[RHS]H1. by apply: eq_bigr => k _; rewrite nth_mkseq.
    - move=> [H0 H1]. split=> //. split.
      + move=> k Hk. rewrite nth_mkseq //. by apply: H0; apply/ltP.
      + rewrite -[RHS]H1. by apply: eq_bigr => k _; rewrite nth_mkseq.
  Qed.

  Lemma optimum_exists : exists w, optimal p w.
  Proof.
    have Hne : exists w, simplex K w.
      exists (fun k => if k == 0%N then 1 else 0). split.
      - move=> k _; case: ifP => _; toR; lra.
      - rewrite rsumE -(prednK HK) big_ord_recl /= big1 ?addr0 //.
    have [w [Hw Hmax]] := @simplex_max K objF Hne objF_cont.
    exists (mkseq w K). split; first exact/feasible_mkseq.
    move=> w' Hw'. have Ew : w' = mkseq (nth 0 w') K.
      have [Hs _] := Hw'. apply: (@eq_from_nth _ 0); first by rewrite size_mkseq.
      move=> i. rewrite Hs => Hi. by rewrite nth_mkseq.
    rewrite Ew !objF_eq. apply: Hmax. apply/feasible_mkseq. by rewrite -Ew.
  Qed.
End Exist.

Section ExactExist.
  Context (n : nat) (sigmas : covs n) (means : option (mus n)) (returns : rets n).
  Let K := List.length sigmas.
  Let LA := RLA n K.
  Context (c : comb LA).
  Hypothesis Hd : dicts sigmas.
  Hypothesis Hc : from_sigmas LA sigmas returns means = Ok c.
  Hypothesis Hy : all_sym sigmas.
  Hypothesis Hi : increasing (forecast_times LA sigmas).

  (** C20: exactly one optimum. *)
  Theorem exact_optimum window times todo t p :
    prepare LA c window times = Ok todo -> List.In (t, p) todo -> exists w, optimal p w /\ forall w', optimal p w' -> w' = w.
  Proof.
    move=> Hp Hin. have [pairs [H1 [H2 [H3 [H4 [H5 [H6 H7]]]]]]] := prepare_pairs LA _ _ _ _ _ _ _ _ _ Hd Hc Hi Hp Hin.
    have HK : (0 < K)%N.
      rewrite lt0n; apply/eqP => E. have Es : sigmas = nil by apply/List.length_zero_iff_nil.
      have [_ [_ [_ Ec]]] := from_sigmas_inv LA sigmas returns means c Hd Hc.
      move: Hp; rewrite Ec => Hp. have [_ [Hl _]] := prepare_posed LA _ _ _ _ _ _ Hd Hi Hp.
      have E0 : List.length (forecast_times LA sigmas) = 0%N by rewrite [in forecast_times _ _]Es.
      by move: Hl; rewrite E0 => /leP.
    have [w Hw] : exists w, optimal p w.
      apply: optimum_exists => // k j Hk. rewrite /rows_of /A_ H6.
      have Hlag := lagged_pairs Hd Hc Hy H2.
      have Hn : forall k0, (k0 < K)%N -> nth [::] (pairs_diag LA sigmas pairs) k0 =
          List.concat (List.map (fun st => [seq (fac sigmas st.1 k0 : 'M[R]_n) i i | i <- enum 'I_n]) pairs).
        move=> k0 Hk0. by rewrite /pairs_diag (@nth_expert n sigmas _ (fun nm => List.concat (List.map (fun st => l_diag LA (factor LA sigmas nm (fst st))) pairs))).
      rewrite -nth0 !Hn // => {Hn}. move: Hlag. clear -Hk.
      elim: pairs j => [|a l IH] j Hlag //=. rewrite !size_cat !size_diags nth_cat size_diags.
      move=> Hj2. case: (ltnP j n) => Hj.
        have E := nth_diags (fac sigmas a.1 k) (Ordinal Hj). rewrite /= in E. rewrite E.
        have [_ Hpos] := Hlag a (or_introl erefl) k Hk. exact: Hpos.
      apply: IH; first by move=> st Hst; apply: Hlag; right.
      by rewrite ltn_subLR.
    exists w; split=> // w' Hw'. exact: (exact_unique Hd Hc Hy Hi Hp Hin Hw' Hw).
  Qed.
End ExactExist.
