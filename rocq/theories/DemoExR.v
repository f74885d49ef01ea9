(** * One asset, six days of prices: the demo completes (window of one day). *)
From Coq Require Import Reals Lra ZArith String List Lia.
Set Warnings "-notation-overridden,-ambiguous-paths".
From mathcomp Require Import all_ssreflect all_algebra.
From Verif Require Import RStruct MatR Spec Num Py ListFacts Ewma EwmaPrefix SpecEwma Combination SpecComb CombFacts CombBuild CombProps CombItems FromEwmas SpecFrom FromEwmasProps RealLA SpecCombR CombReal CombObj CombExact CombExist CombOk CombEx SpecRank SpecRankR RankFacts SpecFromR FromRun FromUnits FromExRun FromEx Demo DemoRun DemoExRun.
Set Implicit Arguments.
Unset Strict Implicit.
Unset Printing Implicit Defensive.
Import GRing.Theory.
Local Open Scope ring_scope.
Delimit Scope R_scope with re.
Delimit Scope Z_scope with z.

Definition dm_label (_ : option xr * option xr) : string := "1-1"%string.
Lemma dm_inj p q : List.In p dm_pairs -> List.In q dm_pairs -> dm_label p = dm_label q -> p = q.
Proof. by move=> [<-|[]] [<-|[]]. Qed.

Definition dm_exp : tdict 'M[R]_1 := [:: (4%z, (dm_var 2)%:M); (5%z, (dm_var 3)%:M); (6%z, (dm_var 4)%:M)].
Definition dm_mu a b c : tdict 'cV[R]_1 := [:: (4%z, a%:M); (5%z, b%:M); (6%z, c%:M)].
Definition dm_s : covs 1 := [:: ("1-1"%string, dm_exp)].
Definition dm_m a b c : mus 1 := [:: ("1-1"%string, dm_mu a b c)].
Definition dm_rows : rets 1 := [:: (2%z, 0%re%:M); (3%z, 1%re%:M); (4%z, (- / 2)%re%:M); (5%z, 8%re%:M); (6%z, 100%re%:M)].

Section Run.
  Notation LA := (RLA 1 1).
  Notation run h := (iterated_ewma dm_P h).
  Notation comb_of h := (from_ewmas (N := XR) LA dm_label (@fr_mat 1) (@fr_vec 1) h dm_pairs 2 2 (Some (Fin 1)) true).
  Notation table_of h := (demo (N := XR) LA dm_label (@fr_mat 1) (@fr_vec 1) (@best 1 1) true (cons "A"%string nil) h dm_pairs 2 2 (Some (Fin 1)) (Some 1%N)).

  Lemma dm_expert : exists outs a b c, run dm_f = Ok outs /\ (Rabs a <= 3)%re /\ (Rabs b <= 24)%re /\
    expert_covs (N := XR) LA (@fr_mat 1) outs = dm_exp /\ expert_means (N := XR) LA (@fr_vec 1) outs = dm_mu a b c.
  Proof.
    have [outs [E [Et Hi]]] := dm_items. case: outs E Et Hi => [//|o0 [//|o1 [//|o2 [|//]]]] E /= [E0 E1 E2] Hi.
    have [C0 [a [M0 B0]]] := Hi 0%N _ erefl. have [C1 [b [M1 B1]]] := Hi 1%N _ erefl. have [C2 [c [M2 _]]] := Hi 2%N _ erefl.
    exists [:: o0; o1; o2], a, b, c. split; first exact: E. move: B0 B1; rewrite /dm_big /= => B0 B1. split; first by lra. split; first by lra. split.
    - rewrite /dm_exp /= E0 E1 E2. do ! congr (_ :: _); congr (_, _); apply: scal1; rewrite mxE.
      + by rewrite -/(cov_at o0 0 0) C0. + by rewrite -/(cov_at o1 0 0) C1. + by rewrite -/(cov_at o2 0 0) C2.
    - rewrite /dm_mu /= E0 E1 E2. do ! congr (_ :: _); congr (_, _); apply: scal1; rewrite !mxE.
      + by rewrite -/(SpecEwma.mean_at o0 0) M0. + by rewrite -/(SpecEwma.mean_at o1 0) M1. + by rewrite -/(SpecEwma.mean_at o2 0) M2.
  Qed.
  Lemma dm_comb : exists a b c, (Rabs a <= 3)%re /\ (Rabs b <= 24)%re /\ comb_of dm_f = from_sigmas LA dm_s dm_rows (Some (dm_m a b c)).
  Proof.
    have [o [a [b [c [E1 [Ba [Bb [C1 M1]]]]]]]] := dm_expert. exists a, b, c. split=> //. split=> //.
    have Eo p : List.In p dm_pairs -> iterated_ewma (pair_params (N := XR) 2 2 (Some (Fin 1)) true p) dm_f = Ok o by move=> [<-|[]]; exact: E1.
    have Hnd : List.NoDup (findex dm_f) by apply: increasing_NoDup; case: dm_valid => _ [].
    have [sigmas [means [E [K1 [K2 [D1 [D2 [A1 [A2 _]]]]]]]]] :=
      @is_from_sigmas XR LA dm_label (@fr_mat 1) (@fr_vec 1) dm_f dm_pairs 2 2 (Some (Fin 1)) true (fun _ => o) erefl erefl Hnd Eo.
    rewrite E. have Er : rows_of_frame (N := XR) LA (@fr_vec 1) dm_f = dm_rows.
      rewrite /rows_of_frame /dm_rows /=. do ! congr (_ :: _); congr (_, _); apply/matrixP => i j; by rewrite !ord1 !mxE.
    have Es : dm_s = sigmas.
      apply: kdict_ext; [by repeat constructor; cbn; intuition discriminate|by rewrite K1|].
      move=> k. rewrite A1 /= C1 /dm_label. by case: (String.eqb k "1-1").
    have Em : dm_m a b c = means.
      apply: kdict_ext; [by repeat constructor; cbn; intuition discriminate|by rewrite K2|].
      move=> k. rewrite A2 /= M1 /dm_label. by case: (String.eqb k "1-1").
    by rewrite Er Es Em.
  Qed.

  Lemma dm_dicts : dicts dm_s.
  Proof. split; first by repeat constructor; cbn; intuition discriminate. repeat constructor; cbn; intuition lia. Qed.
  Lemma dm_spd : all_spd dm_s.
  Proof. move=> ks tS [<-|[]] /= [<-|[<-|[<-|[]]]] /=; apply: spd1; apply: dm_var_pos; lia. Qed.
  Lemma dm_same : same_times LA dm_s.
  Proof. by move=> ks t [<-|[]]. Qed.
  Lemma dm_incr : increasing (forecast_times LA dm_s).
  Proof. by split. Qed.
  Lemma dm_mok a b c : means_ok LA dm_s (Some (dm_m a b c)).
  Proof. by move=> ks [<-|[]]; exists (dm_mu a b c). Qed.
  Lemma dm_known : returns_known LA dm_s dm_rows.
  Proof. move=> t /= [<-|[<-|[]]]; tauto. Qed.
  Definition dm_fac (k : nat) : R := (/ sqrt (dm_var k))%re.
  Lemma dm_fac_pos k : (1 <= k)%coq_nat -> (0 < dm_fac k)%re.
  Proof. move=> Hk. apply: Rinv_0_lt_compat. apply: sqrt_lt_R0. exact: dm_var_pos. Qed.
  Lemma dm_pf k : (1 <= k)%coq_nat -> precision_factor LA ((dm_var k)%:M) = Some (dm_fac k)%:M.
  Proof.
    move=> Hk. have Hv := dm_var_pos k Hk. rewrite /precision_factor /= (spd_unit (spd1 Hv)). apply: chol_unique.
    rewrite invmx_scalar RinvE; last by lra. apply: chol1; first exact: dm_fac_pos.
    rewrite /dm_fac -Rinv_mult sqrt_sqrt //. lra.
  Qed.
  Lemma dm_pair_term a b c t u k r m y0 : (1 <= k)%coq_nat -> fac dm_s t 0 = (dm_fac k)%:M -> mean_of (Some (dm_m a b c)) dm_s 0 t = m%:M ->
    return_at LA dm_rows u = r%:M -> r <> m ->
    let z := (avgL dm_s t [:: y0])^T *m ret dm_s dm_rows u - avgN dm_s (Some (dm_m a b c)) t [:: y0] in
    z = 0 -> y0 = 0%re.
  Proof.
    move=> Hk Hf Hm Hr Hne z. rewrite /z /avgN /avg_nu /ret Hr /avgL /avg_factor [List.length dm_s]/= !big_ord1.
    have -> : nat_of_ord (@ord0 0) = 0%N by []. rewrite Hf Hm /=.
    move=> /matrixP/(_ 0 0). rewrite !mxE ?big_ord1 !mxE /= ?mulr1n. rewrite ?big_ord1 ?mxE /= ?mulr1n. toR => E.
    have P := dm_fac_pos Hk. apply: (Rmult_eq_reg_r (dm_fac k * (r - m))); first by lra. apply: Rmult_integral_contrapositive_currified; lra.
  Qed.
  Lemma dm_quad a b c i : (Rabs a <= 3)%re -> (Rabs b <= 24)%re -> List.In i [:: 0%N; 1%N] ->
    spd (quad LA dm_s (Some (dm_m a b c)) dm_rows (window_at LA dm_s 1 i) : 'M[R]_1).
  Proof.
    move=> Ba Bb.
    have G t u k r m : (1 <= k)%coq_nat -> fac dm_s t 0 = (dm_fac k)%:M -> mean_of (Some (dm_m a b c)) dm_s 0 t = m%:M ->
      return_at LA dm_rows u = r%:M -> r <> m -> spd (pairs_quad LA dm_s (Some (dm_m a b c)) dm_rows [:: (t, u)] : 'M[R]_1).
    { move=> Hk Hf Hm Hr Hne. split; first exact (@quad_sym 1 dm_s (Some (dm_m a b c)) dm_rows _).
      move=> y Hy. have Ey : y = wvec 1 [:: y 0 0].
        apply/colP => j. rewrite !mxE. case: j => [[|//] Hj] /=; congr (y _ _); exact: val_inj.
      rewrite Ey. have := @quad_gram 1 dm_s (Some (dm_m a b c)) dm_rows [:: y 0 0] [:: (t, u)].
      rewrite [List.length dm_s]/= => ->. rewrite big_seq1 [fst _]/= [snd _]/=.
      have T1 := @dm_pair_term a b c t u k r m (y 0 0) Hk Hf Hm Hr Hne. move: T1. cbv zeta. set z1 := (_ - _) => T1.
      apply: nsq_gt0. apply/eqP => E1. case/eqP: Hy. rewrite Ey T1 //. apply/colP => j. rewrite !mxE. by case: j => [[|//] Hj]. }
    have {}Ba := Rabs_between _ _ Ba. have {}Bb := Rabs_between _ _ Bb.
    move=> [<-|[<-|[]]]; rewrite quad_pairs_at.
    - have -> : pairs_at LA dm_s 1 0 = [:: (4%z, 5%z)] by [].
      have Hk : (1 <= 2)%coq_nat by lia. apply: (G _ _ 2%N 8%re a Hk); [|by []|by []|lra].
      by rewrite /fac /factor /= (dm_pf Hk).
    - have -> : pairs_at LA dm_s 1 1 = [:: (5%z, 6%z)] by [].
      have Hk : (1 <= 3)%coq_nat by lia. apply: (G _ _ 3%N 100%re b Hk); [|by []|by []|lra].
      by rewrite /fac /factor /= (dm_pf Hk).
  Qed.
  Theorem dm_run : exists c r5 r6, comb_of dm_f = Ok c /\ solve LA (@best 1 1) c (Some 1%N) None = ([:: Some r5; Some r6], None).
  Proof.
    have [a [b [c [Ba [Bb Ec]]]]] := dm_comb.
    have Hq i : List.In i (positions (scored LA dm_s) (eff (List.length (forecast_times LA dm_s)) (Some 1%N)) None) ->
        spd (quad LA dm_s (Some (dm_m a b c)) dm_rows (window_at LA dm_s (eff (List.length (forecast_times LA dm_s)) (Some 1%N)) i) : 'M[R]_1).
      exact: (@dm_quad a b c i Ba Bb).
    have [c' [items [Hc [Hs [Hlen Hall]]]]] := @healthy_best 1 dm_s (Some (dm_m a b c)) dm_rows dm_dicts dm_same dm_spd (dm_mok a b c) dm_incr dm_known
      (le_S _ _ (le_n 2)) (Some 1%N) None (fun ts H => ltac:(discriminate H)) Hq (@best 1 1) (@best_opt 1 1) (@best_total 1 1).
    rewrite [RHS]/= in Hlen. case: items Hs Hlen Hall => [//|[r3|] [//|[r4|] [|//]]] Hs _ Hall;
      try by inversion Hall as [|? ? A1 A2]; subst; inversion A2.
    exists c', r3, r4. by rewrite Ec.
  Qed.
  Theorem dm_table : exists r5 r6, table_of dm_prices = Ok (Py.dict_of Z.eqb [:: (r_time LA r5, r_weights LA r5); (r_time LA r6, r_weights LA r6)]).
  Proof.
    have [c [r5 [r6 [Hc Hs]]]] := dm_run. exists r5, r6.
    exact (demo_ok LA dm_label (@fr_mat 1) (@fr_vec 1) dm_pairs 2 2 (Some (Fin 1)) (@best 1 1) true (cons "A"%string nil) dm_prices (Some 1%N) dm_f c [:: r5; r6] (dm_demo_returns true) Hc Hs).
  Qed.
End Run.
