(** * from_ewmas over real matrices: positive definite covariances suffice, and are needed. *)
From Coq Require Import Reals Lra ZArith String List Lia.
Set Warnings "-notation-overridden,-ambiguous-paths".
From mathcomp Require Import all_ssreflect all_algebra.
From Verif Require Import RStruct MatR Spec Num Py ListFacts Ewma SpecEwma EwmaProps Combination SpecComb CombFacts CombBuild FromEwmas SpecFrom FromEwmasProps RealLA SpecCombR CombReal CombOk SpecRank SpecRankR RankFacts IewmaRank.
Set Implicit Arguments.
Unset Strict Implicit.
Unset Printing Implicit Defensive.
Import GRing.Theory.
Local Open Scope ring_scope.
Delimit Scope R_scope with re.

Section Bridge.
  Context (n : nat) (to_mat : frame (N := XR) string -> 'M[R]_n) (o : IEWMA (N := XR)).
  Hypothesis Hr : reads_matrix n to_mat.
  Hypothesis Hsy : forall p q, (p < n)%coq_nat -> (q < n)%coq_nat -> cov_at o p q = cov_at o q p.

  Lemma item_qf (z : nat -> R) : nan_free_item n o ->
    qf (to_mat (icov o)) (\col_i z i) = rsum n (fun p => rsum n (fun q => z p * z q * xval (cov_at o p q)))%re.
  Proof.
  move=> Hf. rewrite /qf mxE rsum_big.
  transitivity (\sum_(j < n) \sum_(i < n) z i * z j * xval (cov_at o i j)).
    apply: eq_bigr => j _. rewrite mxE big_distrl /=. apply: eq_bigr => i _. rewrite !mxE (Hr Hf). by rewrite -!mulrA (mulrC (xval _)).
  rewrite exchange_big /=. apply: eq_bigr => i _. by rewrite rsum_big.
  Qed.
  Lemma item_sym : nan_free_item n o -> sym (to_mat (icov o)).
  Proof. move=> Hf. apply/matrixP => i j. rewrite mxE !(Hr Hf) (Hsy (p := i) (q := j)) //; exact/ltP. Qed.
  Lemma item_spd : nan_free_item n o -> (spd (to_mat (icov o)) <-> definite_item n o).
  Proof.
  move=> Hf. split.
    move=> [_ Hq]. split=> // z [p [/ltP Hp Hz]]. rewrite -item_qf //. apply: Hq. apply/eqP => E. apply: Hz.
    have := congr1 (fun v : 'cV[R]_n => v (Ordinal Hp) 0) E. by rewrite !mxE.
  move=> [_ Hq]. split; first exact: item_sym. move=> x Hx.
  pose z p := if insub p is Some p' then x p' 0 else 0 : R.
  have Ez : x = \col_i z i by apply/colP => i; rewrite mxE /z valK.
  rewrite Ez item_qf //. apply: Hq. have [i Hi] : exists i, x i 0 != 0.
    apply/existsP. apply: contraNT Hx => /existsPn H. apply/eqP/colP => i. rewrite mxE. by apply/eqP; move: (H i); rewrite negbK.
  exists i. split; first exact/ltP. rewrite /z valK. exact/eqP.
  Qed.
End Bridge.

Lemma nodup_inj {A B} (f : A -> B) (l : list A) : List.NoDup (List.map f l) -> forall a b, List.In a l -> List.In b l -> f a = f b -> a = b.
Proof.
elim: l => //= c l IH H a b. inversion H as [|y m Hni Hnd]; subst. move=> [<-|Ha] [<-|Hb] // E.
- case: Hni. rewrite E. exact: List.in_map.
- case: Hni. rewrite -E. exact: List.in_map.
- exact: IH.
Qed.
Lemma kget_some_in {V} (d : kdict V) k v : dict_get String.eqb d k = Some v -> List.In (k, v) d.
Proof. elim: d => //= -[a w] d IH. case: (String.eqb_spec k a) => [->[->]|_ /IH]; auto. Qed.

Section From.
  Context (K : nat) (label : option xr * option xr -> string)
          (returns : frame (N := XR) time) (x : nat -> nat -> R) (pairs : list (option xr * option xr))
          (mpv mpc : nat) (clip_at : option xr) (rc : option R) (mean : bool).
  Let n := List.length (fcols returns).
  Context (to_mat : frame (N := XR) string -> 'M[R]_n) (to_vec : list xr -> 'cV[R]_n).
  Notation LA := (RLA n K).
  Notation the_combination := (from_ewmas (N := XR) LA label to_mat to_vec returns pairs mpv mpc clip_at mean).
  Notation run p := (iterated_ewma (pair_params (N := XR) mpv mpc clip_at mean p) returns).

  Hypothesis Hr : reads_matrix n to_mat.
  Hypothesis Hv : valid_returns returns.
  Hypothesis Hx : returns_are true returns x.
  Hypothesis Hp : positive_halflives pairs.
  Hypothesis Hcl : clip_is clip_at rc.
  Hypothesis Hl : (Nat.max 1 mpv <= List.length (findex returns))%coq_nat.
  Hypothesis Hm : moved mean x n (first_pos mpv).

  Lemma run_sym p outs o : List.In p pairs -> run p = Ok outs -> List.In o outs ->
    forall i j, (i < n)%coq_nat -> (j < n)%coq_nat -> cov_at o i j = cov_at o j i.
  Proof.
  move=> Hin E Ho. have [h1 [h2 [HS _]]] := @pair_settings pairs mpv mpc clip_at rc mean Hp Hcl p Hin.
  by case: (covariance_structure _ _ _ _ _ _ _ _ HS Hv Hx _ _ E Ho).
  Qed.

  Theorem from_definite :
    (forall p outs o, List.In p pairs -> run p = Ok outs -> List.In o outs -> definite_item n o) ->
    exists c, the_combination = Ok c /\ K_of LA c = List.length (firsts (List.map label pairs)).
  Proof.
  move=> Hd. have [sigmas [means [outs [Ho [D1 [G1 [E [K1 [_ [Ht [Hok _]]]]]]]]]]] :=
    @same_schedule_outs LA label to_mat to_vec returns x pairs mpv mpc clip_at rc mean Hv Hx Hp Hcl Hl Hm.
  apply: Hok. apply: spd_factors => -[k d] tS Hk Hin.
  have Eg : dict_get String.eqb sigmas k = Some d by apply: kget_in => //; apply: (proj1 D1).
  move: Eg; rewrite G1 => Eg'. move: (last_value_in _ _ _ Eg'). rewrite List.in_map_iff => -[p [[_ Ed] Hpin]]. rewrite -Ed in Hin.
  move: Hin; rewrite /= List.in_map_iff => -[o [<- Hoin]] /=. have [Er _] := Ho p Hpin.
  have Hdo := Hd _ _ _ Hpin Er Hoin. apply/item_spd => //; last exact: (proj1 Hdo). exact: run_sym Hpin Er Hoin.
  Qed.

  Lemma fails_if (sigmas : covs n) k d p outs o :
    List.In p pairs -> run p = Ok outs -> List.In (k, d) sigmas -> d = expert_covs (N := XR) LA to_mat outs -> List.In o outs ->
    nan_free_item n o -> ~ definite_item n o -> ~ factors_exist LA sigmas.
  Proof.
  move=> Hpin Er Hk Ed Hoin Hf Hn Hfe. apply: Hn. have Hsy := run_sym Hpin Er Hoin. apply/(item_spd Hr Hsy Hf).
  have Hin : List.In (itime o, to_mat (icov o)) d.
    rewrite Ed. apply/List.in_map_iff. by exists o.
  have := Hfe (k, d) _ Hk Hin. have Hs := item_sym Hr Hsy Hf. rewrite /precision_factor /=.
  case: ifP => // Hu. case Ec : chol => [L|] // _.
  apply: (spd_inv_iff Hu). apply: is_chol_spd. apply: chol_is_chol Ec. exact: sym_inv.
  Qed.

  Theorem from_indefinite p outs o : List.NoDup (List.map label pairs) ->
    List.In p pairs -> run p = Ok outs -> List.In o outs -> nan_free_item n o -> ~ definite_item n o ->
    the_combination = Raise LinAlgError.
  Proof.
  move=> Hnd Hpin Er Hoin Hf Hn. have [sigmas [means [outs' [Ho [D1 [G1 [E [K1 [_ [Ht [_ Hbad]]]]]]]]]]] :=
    @same_schedule_outs LA label to_mat to_vec returns x pairs mpv mpc clip_at rc mean Hv Hx Hp Hcl Hl Hm.
  apply: Hbad. have [Er' _] := Ho p Hpin. move: Er' (Er) => ->[Eo].
  have Eg : dict_get String.eqb sigmas (label p) = Some (expert_covs (N := XR) LA to_mat (outs' p)).
    rewrite G1. have [v Ev] : exists v, last_value (List.map (fun p => (label p, expert_covs (N := XR) LA to_mat (outs' p))) pairs) (label p) = Some v.
      apply: last_value_key. rewrite List.map_map. apply/List.in_map_iff. by exists p.
    rewrite Ev. congr Some. move: (last_value_in _ _ _ Ev). rewrite List.in_map_iff => -[q [[El <-] Hq]]. congr (expert_covs _ _ (outs' _)).
    apply: (nodup_inj Hnd) => //.
  have Hk : List.In (label p, expert_covs (N := XR) LA to_mat (outs' p)) sigmas by apply: kget_some_in Eg.
  by apply: (fails_if Hpin Er Hk _ Hoin) => //; rewrite Eo.
  Qed.

  Theorem from_too_few :
    pairs <> [::] -> (first_pos mpv + first_pos mpc < List.length (findex returns))%coq_nat ->
    (first_pos mpc + (if mean then 0%N else 1%N) < n)%coq_nat ->
    (forall p outs o, List.In p pairs -> run p = Ok outs -> List.nth_error outs 0 = Some o -> nan_free_item n o) ->
    the_combination = Raise LinAlgError.
  Proof.
  move=> Hne Hlt Hfew Hf. have [sigmas [means [outs [Ho [D1 [G1 [E [K1 [_ [Ht [_ Hbad]]]]]]]]]]] :=
    @same_schedule_outs LA label to_mat to_vec returns x pairs mpv mpc clip_at rc mean Hv Hx Hp Hcl Hl Hm.
  apply: Hbad. case: sigmas D1 G1 E K1 Ht => [|[k d] s] D1 G1 E K1 Ht.
    by case: (pairs) Hne K1 => // p ps _ /=.
  have Eg : dict_get String.eqb ((k, d) :: s) k = Some d by rewrite /= String.eqb_refl.
  move: Eg; rewrite G1 => Eg'. move: (last_value_in _ _ _ Eg'). rewrite List.in_map_iff => -[p [[_ Ed] Hpin]].
  have [Er Eti] := Ho p Hpin.
  have [o Ho0] : exists o, List.nth_error (outs p) 0 = Some o.
    case: (outs p) Eti => [|o l] /=; last by exists o.
    move=> E0. have := congr1 (@List.length _) E0. rewrite List.skipn_length /=. lia.
  have Hoin := List.nth_error_In _ _ Ho0.
  apply: (fails_if Hpin Er _ (esym Ed) Hoin); [by left|exact: Hf Hpin Er Ho0|].
  have [h1 [h2 [HS _]]] := @pair_settings pairs mpv mpc clip_at rc mean Hp Hcl p Hpin.
  apply: (run_too_few _ _ _ _ _ _ _ _ HS Hv Hx _ _ _ Er Ho0). cbn [pair_params use_mean min_periods_cov]. fold n. case: (mean) Hfew => /=; lia.
  Qed.
End From.
