(** * Optimal weights against single experts, and nearly optimal weights (C129, C130). *)
From Coq Require Import Reals Lra ZArith String List Lia.
Set Warnings "-notation-overridden,-ambiguous-paths".
From mathcomp Require Import all_ssreflect all_algebra.
From Verif Require Import RStruct MatR Num Py ListFacts Combination SpecComb CombFacts CombBuild CombSolve CombRun CombProps CombItems RealLA SpecCombR CombReal CombObj CombOpt CombExact SpecNear.
Set Implicit Arguments.
Unset Strict Implicit.
Unset Printing Implicit Defensive.
Import GRing.Theory.
Local Open Scope ring_scope.
Delimit Scope R_scope with re.

(** A positive definite form bounds the square norm. *)
Lemma sum_sq n (f g : 'I_n -> R) p q : \sum_i (p * f i - q * g i)%re * (p * f i - q * g i)%re =
  p * p * (\sum_i f i * f i) + (- (2 * p * q))%re * (\sum_i f i * g i) + q * q * (\sum_i g i * g i).
Proof. rewrite !big_distrr -!big_split /=. apply: eq_bigr => i _. toR. eqR. ring. Qed.
Lemma cauchy1 n (f g : 'I_n -> R) : ((\sum_i f i * g i)%R * (\sum_i f i * g i)%R <= (\sum_i f i * f i)%R * (\sum_i g i * g i)%R)%re.
Proof.
  set A := (\sum_i f i * f i)%R. set B := (\sum_i f i * g i)%R. set C := (\sum_i g i * g i)%R.
  have H0 i : (0 <= f i * f i)%re by exact: Rle_0_sqr.
  have HA : (0 <= A)%re by apply: sumR_ge0 => i _; exact: H0.
  have [HA0|HA0] := Req_dec A 0.
  - have Hf i : f i = 0 by have := sumR_eq0 H0 HA0 i; exact: Rsqr_0_uniq.
    have -> : B = 0 by apply: big1 => i _; rewrite Hf mul0r.
    rewrite HA0. toR. lra.
  - have Hq : (0 <= \sum_i (B * f i - A * g i)%re * (B * f i - A * g i)%re)%re by apply: sumR_ge0 => i _; exact: Rle_0_sqr.
    have E : (\sum_i (B * f i - A * g i)%re * (B * f i - A * g i)%re = B * B * A - 2 * A * B * B + A * A * C)%re.
      rewrite sum_sq -/A -/B -/C. toR. eqR. ring.
    rewrite E in Hq. have HApos : (0 < A)%re by lra.
    nra.
Qed.
Lemma nsq_mul m n (B : 'M[R]_(m, n)) : exists c, (0 <= c)%re /\ forall u, (nsq (B *m u) <= c * nsq u)%re.
Proof.
  exists (\sum_i \sum_j B i j * B i j). split; first by apply: sumR_ge0 => i _; apply: sumR_ge0 => j _; exact: Rle_0_sqr.
  move=> u. rewrite !nsqE. change ((\sum_i (B *m u) i 0 * (B *m u) i 0 <= (\sum_i \sum_j B i j * B i j)%R * (\sum_i u i 0 * u i 0)%R)%re).
  have -> : ((\sum_i \sum_j B i j * B i j)%R * (\sum_i u i 0 * u i 0)%R)%re = \sum_i (\sum_j B i j * B i j) * (\sum_i u i 0 * u i 0) by rewrite -mulr_suml.
  apply: sumR_le => i _. rewrite mxE. exact: cauchy1.
Qed.
Lemma spd_lower n (Q : 'M[R]_n) : spd Q -> exists l, (0 < l)%re /\ forall v, (l * nsq v <= qf Q v)%re.
Proof.
  move=> HQ. have [P HP] := chol_complete HQ. have HC := chol_is_chol (proj1 HQ) HP. have HU := is_chol_unit HC. have [_ [_ E]] := HC.
  have [c [Hc0 Hc]] := nsq_mul (invmx P^T). exists (/ (c + 1))%re. split; first by apply: Rinv_0_lt_compat; lra.
  move=> v. have := Hc (P^T *m v). rewrite mulmxA mulVmx ?unitmx_tr // mul1mx.
  have -> : nsq (P^T *m v) = qf Q v by rewrite -E /qf /nsq trmx_mul trmxK !mulmxA.
  have : (0 <= qf Q v)%re by apply: (spd_psd HQ).2.
  move: (nsq v) (qf Q v) => a b Hb H. apply: (Rmult_le_reg_l (c + 1)); first by lra.
  rewrite -Rmult_assoc Rinv_r; last by lra. nra.
Qed.

(** The weights of one expert alone. *)
Definition only (K k : nat) : list R := mkseq (fun i => if i == k then 1 else 0) K.
Lemma only_size K k : size (only K k) = K. Proof. exact: size_mkseq. Qed.
Lemma only_nth K k (i : 'I_K) : nth 0 (only K k) i = if (i : nat) == k then 1 else 0.
Proof. by rewrite nth_mkseq. Qed.
Lemma only_sum (V : lmodType R) K k (F : nat -> V) : (k < K)%N -> \sum_(i < K) nth 0 (only K k) i *: F i = F k.
Proof.
  move=> Hk. rewrite (bigD1 (Ordinal Hk)) // only_nth eqxx scale1r big1; first by rewrite /= addr0. move=> i Hi.
  rewrite only_nth. case: eqP => [E|_]; last by rewrite scale0r. case/eqP: Hi. exact: val_inj.
Qed.
Lemma only_feasible K k : (k < K)%N -> feasible K (only K k).
Proof.
  move=> Hk. split; first exact: only_size. split.
  - move=> i Hi. rewrite nth_mkseq //. case: ifP => _; toR; lra.
  - rewrite (bigD1 (Ordinal Hk)) // only_nth eqxx big1; first by rewrite /= addr0. move=> i Hi. rewrite only_nth. case: eqP => // E. case/eqP: Hi. exact: val_inj.
Qed.

Section Best.
  Context (n : nat) (sigmas : covs n) (means : option (mus n)) (returns : rets n).
  Let K := List.length sigmas.
  Let LA := RLA n K.
  Context (c : comb LA).
  Hypothesis Hd : dicts sigmas.
  Hypothesis Hc : from_sigmas LA sigmas returns means = Ok c.
  Hypothesis Hy : all_sym sigmas.
  Let Hinv := from_sigmas_inv LA sigmas returns means c Hd Hc.

  (** With all the weight on one expert the combined predictor is that expert. *)
  Lemma only_result k s r : (k < K)%N -> List.In s (forecast_times LA sigmas) -> result_at LA c s (only K k) = Ok r ->
    cov_of sigmas k s = Some (r_cov LA r : 'M[R]_n) /\ r_mean LA r = mean_of means sigmas k s.
  Proof.
    move=> Hk Hs. case: Hinv => Hsm [Hfe [_ Ec]]. rewrite Ec (result_at_eq LA) //.
    case Er: (combined LA sigmas means s (only K k)) => [r'|] //= [<-].
    have [_ [_ [_ [F [HF [E1 E2]]]]]] := combined_spd Hd Hsm Hfe Hy Hs (only_feasible Hk) Er.
    move: E1 E2. rewrite /avg_factor /avg_nu (only_sum F Hk) (only_sum (fun k => (F k)^T *m mean_of means sigmas k s) Hk) => E1 E2.
    have [S [HS [HU HC]]] := HF k Hk. have [_ [_ E]] := HC. have FU := is_chol_unit HC. split.
    - rewrite HS. congr Some. by rewrite -[RHS]invmxK E1 E invmxK.
    - have := congr1 (fun v => invmx (F k)^T *m v) E2. by rewrite !mulmxA !mulVmx ?unitmx_tr // !mul1mx.
  Qed.

  Hypothesis Hi : increasing (forecast_times LA sigmas).

  Theorem best_in_window slv window times items ex r : returns_optimal slv ->
    solve LA slv c window times = (items, ex) -> List.In (Some r) items ->
    exists pairs, List.length pairs = eff (List.length (forecast_times LA sigmas)) window /\
      (forall s u, List.In (s, u) pairs -> consecutive (forecast_times LA sigmas) s u) /\
      (exists a, List.map snd pairs = sub (scored LA sigmas) a (List.length pairs)) /\ List.last (List.map snd pairs) Z0 = r_time LA r /\
      exists pred, (forall s u, List.In (s, u) pairs -> result_at LA c s (r_weights LA r) = Ok (pred s)) /\
      forall k, (k < K)%N -> exists S, (forall s u, List.In (s, u) pairs -> cov_of sigmas k s = Some (S s)) /\
        (\sum_(su <- pairs) gauss_loglik (return_at LA returns su.2) (mean_of means sigmas k su.1) (S su.1)
         <= \sum_(su <- pairs) gauss_loglik (return_at LA returns su.2) (r_mean LA (pred su.1)) (r_cov LA (pred su.1)))%re.
  Proof.
    move=> Ho. rewrite /solve. case Ep: (prepare LA c window times) => [todo|e]; last by case=> <- _.
    case: Hinv => Hsm [Hfe [_ Ec]] Hs Hin. rewrite {1}Ec in Hs.
    have [h [t [p [w [Hp [Hw [Ht Hr]]]]]]] := loop_items LA _ _ _ _ _ _ _ _ _ Hs Hin.
    have [Fw Ow] := Ho _ _ _ Hw.
    have [_ [Et [Ew _]]] := combined_spd Hd Hsm Hfe Hy Ht Fw Hr.
    have [pairs [H1 [H2 [H3 [H4 H5]]]]] := exact_likelihood Hd Hc Hy Hi Ep Hp.
    exists pairs. do 4 (split; first by rewrite ?Et). rewrite Ew. have [pred [P1 P2]] := H5 _ Fw. exists pred. split=> //.
    move=> k Hk. have [pk [Q1 Q2]] := H5 _ (only_feasible Hk). exists (fun s => r_cov LA (pk s)).
    have G s u : List.In (s, u) pairs -> cov_of sigmas k s = Some (r_cov LA (pk s) : 'M[R]_n) /\ r_mean LA (pk s) = mean_of means sigmas k s.
      move=> Hsu. have [Hs' _] := consecutive_in _ _ _ (H2 _ _ Hsu). exact: only_result (Q1 _ _ Hsu).
    split; first by move=> s u /G [].
    have := Ow _ (only_feasible Hk). rewrite P2 Q2.
    have -> : \sum_(su <- pairs) gauss_loglik (return_at LA returns su.2) (mean_of means sigmas k su.1) (r_cov LA (pk su.1)) =
      \sum_(su <- pairs) gauss_loglik (return_at LA returns su.2) (r_mean LA (pk su.1)) (r_cov LA (pk su.1)).
      clear -G. elim: pairs G => [|[s u] l IH] G; first by rewrite !big_nil. rewrite !big_cons IH; last by move=> s' u' H; apply: (G s' u'); right.
      by rewrite /= (proj2 (G s u (or_introl erefl))).
    exact: Rplus_le_reg_r.
  Qed.
End Best.

Section Near.
  Context (n : nat) (sigmas : covs n) (means : option (mus n)) (returns : rets n).
  Let K := List.length sigmas.
  Let LA := RLA n K.

  Lemma near_qf pairs P w1 w2 eps : lagged_ok sigmas pairs ->
    l_cholK LA (pairs_quad LA sigmas means returns pairs) = Some P ->
    optimal (n := n) (K := K) (pairs_diag LA sigmas pairs, P) w1 ->
    nearly_optimal (n := n) (K := K) eps (pairs_diag LA sigmas pairs, P) w2 ->
    (qf (pairs_quad LA sigmas means returns pairs : 'M[R]_K) (wvec K w1 - wvec K w2) <= 4 * eps)%re.
  Proof.
    move=> Hl HP [F1 O1] [F2 O2].
    have HK : (0 < K)%N.
      rewrite lt0n; apply/eqP => E. case: F1 => _ [_]; rewrite E big_ord0; toR => ?; lra.
    have S1 : size w1 = K by case: F1. have S2 : size w2 = K by case: F2.
    have [_ [_ E]] := chol_is_chol (quad_sym sigmas means returns pairs) HP.
    set Q := pairs_quad LA sigmas means returns pairs in HP E *.
    have Hobj : forall w, objective (n := n) (K := K) (rows_of (pairs_diag LA sigmas pairs, P)) (pairs_diag LA sigmas pairs, P) w =
       ((\sum_(st <- pairs) \sum_(i < n) ln (avgL sigmas st.1 w i i)) - / 2 * qf (Q : 'M[R]_K) (wvec K w))%re.
      move=> w. rewrite (objective_closed _ HK HP) /term sumrB. congr (_ - _)%re.
      by rewrite -mulr_sumr /Q quad_gram.
    have Fm := feasible_mid F1 F2.
    have Hm := logpart_mid Hl F1 F2.
    have := O1 _ Fm; have := O2 _ F1. rewrite !Hobj wvec_mid // qf_mid; last exact: quad_sym.
    move: Hm. hide_sums. move: (qf _ _) (qf _ _) (qf _ _) => a b d. lra.
  Qed.
End Near.
