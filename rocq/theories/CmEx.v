(** * One asset, four days, two half-lives: the CM-IEWMA cell with lamda = 1/20 completes. *)
From Coq Require Import Reals Lra ZArith String List Lia.
Set Warnings "-notation-overridden,-ambiguous-paths".
From mathcomp Require Import all_ssreflect all_algebra.
From Verif Require Import RStruct MatR Spec Num Py ListFacts Ewma EwmaPrefix SpecEwma Combination SpecComb CombFacts CombBuild CombProps CombItems FromEwmas SpecFrom FromEwmasProps RealLA SpecCombR CombReal CombObj CombExact CombExist CombOk CombEx SpecRank SpecRankR RankFacts SpecFromR FromRun FromUnits FromExRun FromEx SpecExp ExpDiag CmIewma CmRun CmReal.
Set Implicit Arguments.
Unset Strict Implicit.
Unset Printing Implicit Defensive.
Import GRing.Theory.
Local Open Scope ring_scope.
Delimit Scope R_scope with re.
Delimit Scope Z_scope with z.

Definition cx_l : R := (/ 20)%re.
Definition cx_v1 (k : nat) : R := ((1 + cx_l) * fr_var 1 k)%re.
Definition cx_v2 (k : nat) : R := fr_var (/ 2) k.
Definition cx_exp (v : nat -> R) : tdict 'M[R]_1 := [:: (1%z, (v 0%N)%:M); (2%z, (v 1%N)%:M); (3%z, (v 2%N)%:M); (4%z, (v 3%N)%:M)].
Definition cx_s : covs 1 := [:: ("1-1"%string, cx_exp cx_v1); ("0.5-0.5"%string, cx_exp cx_v2)].

Section Run.
  Notation LA := (RLA 1 2).
  Notation run p h := (iterated_ewma (pair_params (N := XR) 1 1 None false p) h).
  Notation build h := (cm_build (N := XR) LA fr_label (@fr_mat 1) (@fr_vec 1) (scale_variances (1 + cx_l)) h fr_pairs 1 1).
  Notation cell slv h w := (cm_iewma (N := XR) LA fr_label (@fr_mat 1) (@fr_vec 1) (scale_variances (1 + cx_l)) slv h fr_pairs 1 1 w).

  Lemma cx_pos v k : (v = cx_v1 \/ v = cx_v2) -> (k < 4)%coq_nat -> (0 < v k)%re.
  Proof.
    move=> [->|->] Hk; rewrite /cx_v1 /cx_v2 /cx_l.
    - have := fr_var_pos 1 k Rlt_0_1 Hk. nra.
    - have H2 : (0 < / 2)%re by lra. exact: fr_var_pos.
  Qed.
  Lemma cx_comb : build fr_f = from_sigmas LA cx_s fr_rows None.
  Proof.
    have [o1 [E1 [C1 [M1 _]]]] := fr_expert Rlt_0_1.
    have H2 : (0 < / 2)%re by lra.
    have [o2 [E2 [C2 [M2 _]]]] := fr_expert H2.
    pose outs p := match run p fr_f with Ok o => o | Raise _ => nil end.
    have Eo p : List.In p fr_pairs -> run p fr_f = Ok (outs p).
      by rewrite /outs => -[<-|[<-|[]]]; rewrite ?E1 ?E2.
    have X1 : outs (fr_pair 1) = o1 by rewrite /outs E1.
    have X2 : outs (fr_pair (/ 2)) = o2 by rewrite /outs E2.
    have Hnd : List.NoDup (findex fr_f) by apply: increasing_NoDup; case: fr_valid => _ [].
    have [sigmas Hi] := @cm_issue XR LA fr_label (@fr_mat 1) (scale_variances (1 + cx_l)) (fr_pair 1) [:: fr_pair (/ 2)] 1 1 erefl fr_inj fr_f outs erefl Hnd Eo.
    have Er : rows_of_frame (N := XR) LA (@fr_vec 1) fr_f = fr_rows.
      rewrite /rows_of_frame /fr_rows /=. do ! congr (_ :: _); congr (_, _); apply/matrixP => i j; by rewrite !ord1 !mxE.
    have [L1 L2] : fr_label (fr_pair 1) = "1-1"%string /\ fr_label (fr_pair (/ 2)) = "0.5-0.5"%string by have [-> ->] := fr_labels.
    rewrite (cm_built (N := XR) LA fr_label (@fr_mat 1) (@fr_vec 1) _ (fr_pair 1) [:: fr_pair (/ 2)] 1 1 fr_f outs sigmas Hi) Er.
    have [_ [K1 [D1 [A1 B1]]]] := Hi.
    have Es : cx_s = sigmas.
      apply: kdict_ext.
      - by repeat constructor; cbn; intuition discriminate.
      - by rewrite K1 -/fr_pairs fr_labels.
      - move=> k. have G1 := A1 _ (or_introl erefl). have G2 := A1 _ (or_intror (or_introl erefl)). rewrite X1 L1 in G1. rewrite X2 L2 in G2.
        rewrite /= . case: (String.eqb_spec k "1-1") => [->|N1]; [|case: (String.eqb_spec k "0.5-0.5") => [->|N2]].
        + rewrite G1. congr Some. have -> : cm_covs (N := XR) LA fr_label (@fr_mat 1) (scale_variances (1 + cx_l)) (fr_pair 1) (fr_pair 1) o1 =
            List.map (fun tS => (fst tS, scale_variances (1 + cx_l) (snd tS))) (expert_covs (N := XR) LA (@fr_mat 1) o1).
            rewrite /cm_covs /expert_covs List.map_map. apply: List.map_ext => o. by rewrite /cm_mat String.eqb_refl.
          rewrite C1 /fr_exp /cx_exp /=. do ! congr (_ :: _); congr (_, _); apply/matrixP => i j; by rewrite !ord1 !mxE eqxx !mulr1n.
        + rewrite G2. congr Some. rewrite -[cx_exp _]/(fr_exp (/ 2)) -C2. apply: List.map_ext => o. rewrite /cm_mat L1 L2 //.
        + symmetry. apply/kget_none. rewrite K1 -/fr_pairs fr_labels /=. by move=> [E|[E|[]]]; [apply: N1|apply: N2].
    by rewrite Es.
  Qed.

  Lemma cx_dicts : dicts cx_s.
  Proof. split; first by repeat constructor; cbn; intuition discriminate. repeat constructor; cbn; intuition lia. Qed.
  Lemma cx_spd : all_spd cx_s.
  Proof.
    have H v k : (v = cx_v1 \/ v = cx_v2) -> (k < 4)%coq_nat -> spd ((v k)%:M : 'M[R]_1) by move=> Hh Hk; apply: spd1; apply: cx_pos.
    move=> ks tS [<-|[<-|[]]] /= [<-|[<-|[<-|[<-|[]]]]] /=; apply: H; (auto || lia).
  Qed.
  Lemma cx_same : same_times LA cx_s.
  Proof. by move=> ks t [<-|[<-|[]]]. Qed.
  Lemma cx_inc : increasing (forecast_times LA cx_s).
  Proof. by split. Qed.
  Lemma cx_known : returns_known LA cx_s fr_rows.
  Proof. move=> t /= [<-|[<-|[<-|[]]]]; auto. Qed.
  Definition cx_fac (v : nat -> R) (k : nat) : R := (/ sqrt (v k))%re.
  Lemma cx_fac_pos v k : (v = cx_v1 \/ v = cx_v2) -> (k < 4)%coq_nat -> (0 < cx_fac v k)%re.
  Proof. move=> Hh Hk. apply: Rinv_0_lt_compat. apply: sqrt_lt_R0. exact: cx_pos. Qed.
  Lemma cx_pf v k : (v = cx_v1 \/ v = cx_v2) -> (k < 4)%coq_nat -> precision_factor LA ((v k)%:M : 'M[R]_1) = Some (cx_fac v k)%:M.
  Proof.
    move=> Hh Hk. have Hv := cx_pos Hh Hk. rewrite /precision_factor /= (spd_unit (spd1 Hv)). apply: chol_unique.
    rewrite invmx_scalar RinvE; last by lra. apply: chol1; first exact: cx_fac_pos.
    rewrite /cx_fac -Rinv_mult sqrt_sqrt //. lra.
  Qed.
  Lemma cx_facE t k : (k < 4)%coq_nat -> t = Z.of_nat k.+1 -> fac cx_s t 0 = (cx_fac cx_v1 k)%:M /\ fac cx_s t 1 = (cx_fac cx_v2 k)%:M.
  Proof.
    move=> Hk ->. have G1 : cx_v1 = cx_v1 \/ cx_v1 = cx_v2 by left. have G2 : cx_v2 = cx_v1 \/ cx_v2 = cx_v2 by right.
    case: k Hk => [|[|[|[|k]]]] Hk; try lia; rewrite /fac /factor /= ?(cx_pf G1) ?(cx_pf G2) //; lia.
  Qed.
  Lemma cx_mean t k : mean_of None cx_s k t = 0.
  Proof. by rewrite /mean_of; case: k => [|[|[|k]]]. Qed.
  Lemma cx_sq v k : (v = cx_v1 \/ v = cx_v2) -> (k < 4)%coq_nat -> (cx_fac v k * cx_fac v k * v k = 1)%re.
  Proof.
    move=> Hh Hk. have Hv := cx_pos Hh Hk. have Hs := sqrt_lt_R0 _ Hv. rewrite /cx_fac.
    rewrite -[X in (_ * X)%re](sqrt_sqrt (v k)); last by lra. field. lra.
  Qed.
  Lemma cx_det k l : (k < 4)%coq_nat -> (l < 4)%coq_nat -> (cx_v1 k * cx_v2 l <> cx_v1 l * cx_v2 k)%re ->
    (cx_fac cx_v1 k * cx_fac cx_v2 l - cx_fac cx_v1 l * cx_fac cx_v2 k <> 0)%re.
  Proof.
    move=> Hk Hl Hne E. apply: Hne. have G1 : cx_v1 = cx_v1 \/ cx_v1 = cx_v2 by left. have G2 : cx_v2 = cx_v1 \/ cx_v2 = cx_v2 by right.
    have := cx_sq G1 Hk; have := cx_sq G1 Hl; have := cx_sq G2 Hk; have := cx_sq G2 Hl.
    have {E} : (cx_fac cx_v1 k * cx_fac cx_v2 l = cx_fac cx_v1 l * cx_fac cx_v2 k)%re by lra.
    move: (cx_fac cx_v1 k) (cx_fac cx_v2 l) (cx_fac cx_v1 l) (cx_fac cx_v2 k) (cx_v1 k) (cx_v2 l) (cx_v1 l) (cx_v2 k) => a b c d A B C D E E1 E2 E3 E4.
    have Ea : (a * b * (a * b) = c * d * (c * d))%re by rewrite E.
    have E5 : (a * b * (a * b) * (A * B) = 1)%re by transitivity ((a * a * A) * (b * b * B))%re; [ring|nra].
    have E6 : (c * d * (c * d) * (C * D) = 1)%re by transitivity ((c * c * C) * (d * d * D))%re; [ring|nra].
    rewrite -Ea in E6. have Hn : (a * b * (a * b) <> 0)%re by move=> H0; rewrite H0 in E5; lra.
    apply: (Rmult_eq_reg_l (a * b * (a * b))) => //. lra.
  Qed.
  Lemma cx_pair_term k y0 y1 u r : (k < 4)%coq_nat -> return_at LA fr_rows u = r%:M -> (0 < r)%re ->
    let z := (avgL cx_s (Z.of_nat k.+1) [:: y0; y1])^T *m ret cx_s fr_rows u - avgN cx_s None (Z.of_nat k.+1) [:: y0; y1] in
    z = 0 -> (y0 * cx_fac cx_v1 k + y1 * cx_fac cx_v2 k = 0)%re.
  Proof.
    move=> Hk Hr H0 z. rewrite /z /avgN /avg_nu big1; last by move=> i _; rewrite cx_mean mulmx0 scaler0.
    rewrite subr0 /ret Hr /avgL /avg_factor [List.length cx_s]/= big_ord_recl big_ord1 /=. have [-> ->] := cx_facE Hk erefl.
    move=> /matrixP/(_ 0 0). rewrite !mxE big_ord1 !mxE /= ?mulr1n. toR => E. apply: (Rmult_eq_reg_r r); lra.
  Qed.
  Lemma cx_quad i : List.In i [:: 1%N; 2%N] -> spd (quad LA cx_s None fr_rows (window_at LA cx_s 2 i) : 'M[R]_2).
  Proof.
    have G k (u1 u2 : Z) r1 r2 : (k < 3)%coq_nat -> return_at LA fr_rows u1 = r1%:M -> (0 < r1)%re -> return_at LA fr_rows u2 = r2%:M -> (0 < r2)%re ->
      (cx_v1 k * cx_v2 k.+1 <> cx_v1 k.+1 * cx_v2 k)%re ->
      spd (pairs_quad LA cx_s None fr_rows [:: (Z.of_nat k.+1, u1); (Z.of_nat k.+2, u2)] : 'M[R]_2).
    { move=> Hk R1 P1 R2 P2 /cx_det Hdet. have {}Hdet := Hdet ltac:(lia) ltac:(lia).
      split; first exact (@quad_sym 1 cx_s None fr_rows _).
      move=> y Hy. have Ey : y = wvec 2 [:: y 0 0; y 1 0].
        apply/colP => j. rewrite !mxE. case: j => [[|[|//]] Hj] /=; congr (y _ _); exact: val_inj.
      rewrite Ey. have := @quad_gram 1 cx_s None fr_rows [:: y 0 0; y 1 0] [:: (Z.of_nat k.+1, u1); (Z.of_nat k.+2, u2)].
      rewrite [List.length cx_s]/= => ->. rewrite big_cons big_seq1 [fst _]/= [fst _]/= [snd _]/= [snd _]/=.
      have T1 := @cx_pair_term k (y 0 0) (y 1 0) u1 r1 ltac:(lia) R1 P1. have T2 := @cx_pair_term k.+1 (y 0 0) (y 1 0) u2 r2 ltac:(lia) R2 P2.
      move: T1 T2. cbv zeta. set z1 := (_ - _). set z2 := (_ - _) => T1 T2.
      case: (boolP (z1 == 0)) => [/eqP E1|N1]; last first.
        apply: Rplus_lt_le_0_compat; [exact: nsq_gt0|exact: nsq_ge0].
      apply: Rplus_le_lt_0_compat; first exact: nsq_ge0. apply: nsq_gt0. apply/eqP => E2.
      have {}T1 := T1 E1. have {}T2 := T2 E2. case/eqP: Hy. rewrite Ey. move: (y 0 0) (y 1 0) T1 T2 {Ey E1 E2 z1 z2} => y0 y1 T1 T2.
      move: Hdet T1 T2. move: (cx_fac cx_v1 k) (cx_fac cx_v2 k) (cx_fac cx_v1 k.+1) (cx_fac cx_v2 k.+1) => a b c d D T1 T2.
      have Y0 : y0 = 0.
        apply: (Rmult_eq_reg_r (a * d - c * b)) => //. transitivity (d * (y0 * a + y1 * b) - b * (y0 * c + y1 * d))%re; first by ring. rewrite T1 T2. toR; ring.
      have Y1 : y1 = 0.
        apply: (Rmult_eq_reg_r (a * d - c * b)) => //. transitivity (a * (y0 * c + y1 * d) - c * (y0 * a + y1 * b))%re; first by ring. rewrite T1 T2. toR; ring.
      rewrite Y0 Y1. apply/colP => j. rewrite !mxE. by case: j => [[|[|//]] Hj]. }
    have [V10 [V11 V12]] := fr_var_1. have [V20 [V21 V22]] := fr_var_2.
    move=> [<-|[<-|[]]]; rewrite quad_pairs_at.
    - have -> : pairs_at LA cx_s 2 1 = [:: (1%z, 2%z); (2%z, 3%z)] by [].
      apply: (G 0%N _ _ 2%re 4%re) => //; [lia|lra|lra|]. rewrite /cx_v1 /cx_v2 /cx_l V10 V11 V20 V21. lra.
    - have -> : pairs_at LA cx_s 2 2 = [:: (2%z, 3%z); (3%z, 4%z)] by [].
      apply: (G 1%N _ _ 4%re 8%re) => //; [lia|lra|lra|]. rewrite /cx_v1 /cx_v2 /cx_l V11 V12 V21 V22. lra.
  Qed.
  Theorem cx_run : exists c S3 S4 w3 w4, build fr_f = Ok c /\
    cell (@best 1 2) fr_f (Some 2%N) = Ok ([:: (3%z, S3); (4%z, S4)], [:: (3%z, w3); (4%z, w4)]).
  Proof.
    have Hq i : List.In i (positions (scored LA cx_s) (eff (List.length (forecast_times LA cx_s)) (Some 2%N)) None) ->
        spd (quad LA cx_s None fr_rows (window_at LA cx_s (eff (List.length (forecast_times LA cx_s)) (Some 2%N)) i) : 'M[R]_2).
      exact: (@cx_quad i).
    have [c [items [Hc [Hs [Hlen Hall]]]]] := @healthy_best 1 cx_s None fr_rows cx_dicts cx_same cx_spd I cx_inc cx_known
      (le_S _ _ (le_S _ _ (le_n 2))) (Some 2%N) None (fun ts H => ltac:(discriminate H)) Hq (@best 1 2) (@best_opt 1 2) (@best_total 1 2).
    rewrite [RHS]/= in Hlen. case: items Hs Hlen Hall => [//|[r3|] [//|[r4|] [|//]]] Hs _ Hall;
      try by inversion Hall as [|? ? A1 A2]; subst; inversion A2.
    have [_ L] := @CombProps.schedule LA cx_s fr_rows None c (@best 1 2) (Some 2%N) _ cx_dicts Hc cx_inc cx_known (le_S _ _ (le_S _ _ (le_n 2))) Hs.
    have T3 := L 0%N r3 erefl. have T4 := L 1%N r4 erefl. rewrite /= in T3 T4.
    exists c, (r_cov LA r3), (r_cov LA r4), (r_weights LA r3), (r_weights LA r4). rewrite cx_comb. split=> //.
    by rewrite /cm_iewma cx_comb Hc /= Hs /= T3 T4.
  Qed.
  Lemma none_loop (c : comb LA) h todo items : solve_loop LA (fun _ _ => None) c h todo = (items, None) -> List.Forall (fun r => r = None) items.
  Proof. elim: todo h items => [|[t p] l IH] h items /=; first by case=> <-. case E: solve_loop => [iz ex] /= [<- Ee]. rewrite Ee in E. constructor=> //. exact: IH E. Qed.
  (** A solver that always fails. *)
  Theorem cx_failed : cell (fun _ _ => None) fr_f (Some 2%N) = Raise AttributeError.
  Proof.
    have Hq i : List.In i (positions (scored LA cx_s) (eff (List.length (forecast_times LA cx_s)) (Some 2%N)) None) ->
        spd (quad LA cx_s None fr_rows (window_at LA cx_s (eff (List.length (forecast_times LA cx_s)) (Some 2%N)) i) : 'M[R]_2).
      exact: (@cx_quad i).
    have [c [items [Hc [Hs Hlen]]]] := @healthy_run 1 cx_s None fr_rows cx_dicts cx_same cx_spd I cx_inc cx_known
      (le_S _ _ (le_S _ _ (le_n 2))) (Some 2%N) None (fun ts H => ltac:(discriminate H)) Hq (fun _ _ => None) (fun h p x H => ltac:(discriminate H)).
    rewrite [RHS]/= in Hlen. apply: (@cell_none _ _ _ _ _ _ _ _ _ _ _ _ c items); first by rewrite cx_comb. exact: Hs.
    move: Hs. rewrite /solve. case: prepare => // todo /none_loop HF. case: items Hlen HF => [//|a l] _ HF. have := List.Forall_inv HF. by left.
  Qed.
End Run.
