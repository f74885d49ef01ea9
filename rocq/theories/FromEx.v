(** * One asset, four days, two half-lives: from_ewmas builds and solve() completes. *)
From Coq Require Import Reals Lra ZArith String List Lia.
Set Warnings "-notation-overridden,-ambiguous-paths".
From mathcomp Require Import all_ssreflect all_algebra.
From Verif Require Import RStruct MatR Spec Num Py ListFacts Ewma EwmaPrefix SpecEwma Combination SpecComb CombFacts CombBuild CombProps CombItems FromEwmas SpecFrom FromEwmasProps RealLA SpecCombR CombReal CombObj CombExact CombExist CombOk CombEx SpecRank SpecRankR RankFacts SpecFromR FromRun FromUnits FromExRun.
Set Implicit Arguments.
Unset Strict Implicit.
Unset Printing Implicit Defensive.
Import GRing.Theory.
Local Open Scope ring_scope.
Delimit Scope R_scope with re.
Delimit Scope Z_scope with z.

Definition fr_mat n (f : frame (N := XR) string) : 'M[R]_n := \matrix_(i, j) xval (List.nth j (List.nth i (fvals f) nil) NaN).
Definition fr_vec n (v : list xr) : 'cV[R]_n := \col_i xval (List.nth i v NaN).
Lemma fr_reads n : reads_matrix n (@fr_mat n).
Proof. by move=> o _ i j; rewrite mxE. Qed.
Lemma fr_readsv n : reads_vector n (@fr_vec n).
Proof. by move=> v _ i; rewrite mxE. Qed.

Definition fr_cv (h : R) (k : nat) : 'M[R]_1 := (fr_var h k)%:M.
Definition fr_exp (h : R) : tdict 'M[R]_1 := [:: (1%z, fr_cv h 0); (2%z, fr_cv h 1); (3%z, fr_cv h 2); (4%z, fr_cv h 3)].
Definition fr_mu : tdict 'cV[R]_1 := [:: (1%z, 0); (2%z, 0); (3%z, 0); (4%z, 0)].
Definition fr_s : covs 1 := [:: ("1-1"%string, fr_exp 1); ("0.5-0.5"%string, fr_exp (/ 2))].
Definition fr_m : mus 1 := [:: ("1-1"%string, fr_mu); ("0.5-0.5"%string, fr_mu)].
Definition fr_rows : rets 1 := [:: (1%z, 1%:M); (2%z, 2%re%:M); (3%z, 4%re%:M); (4%z, 8%re%:M)].

Section Run.
  Notation LA := (RLA 1 2).
  Notation run p h := (iterated_ewma (pair_params (N := XR) 1 1 None false p) h).
  Notation comb_of h := (from_ewmas (N := XR) LA fr_label (@fr_mat 1) (@fr_vec 1) h fr_pairs 1 1 None false).

  Lemma scal1 (A : 'M[R]_1) a : A 0 0 = a -> A = a%:M.
  Proof. move=> E. apply/matrixP => i j. by rewrite !ord1 !mxE eqxx mulr1n E. Qed.
  Lemma fr_expert h : (0 < h)%re -> exists outs, run (fr_pair h) fr_f = Ok outs /\
    expert_covs (N := XR) LA (@fr_mat 1) outs = fr_exp h /\ expert_means (N := XR) LA (@fr_vec 1) outs = fr_mu /\
    forall o, List.In o outs -> finite_item 1 o.
  Proof.
    move=> Hh. have [outs [E [Et Hi]]] := fr_items h Hh. exists outs. split; first exact: E.
    have Hf o : List.In o outs -> finite_item 1 o.
      move=> Ho. have [i Ei] := List.In_nth_error _ _ Ho. have [Ec Em] := Hi i o Ei. split.
        move=> p q Hp Hq. have -> : p = 0%N by lia. have -> : q = 0%N by lia. by eexists; exact: Ec.
      move=> p Hp. have -> : p = 0%N by lia. by eexists; exact: Em.
    split; last split; last exact: Hf.
    all: case: outs Et Hi {E Hf} => [//|o0 [//|o1 [//|o2 [//|o3 [|//]]]]] /= [-> -> -> ->] Hi.
    all: have [C0 M0] := Hi 0%N _ erefl; have [C1 M1] := Hi 1%N _ erefl; have [C2 M2] := Hi 2%N _ erefl; have [C3 M3] := Hi 3%N _ erefl.
      rewrite /fr_exp. do ! congr (_ :: _); congr (_, _); apply: scal1; rewrite mxE.
      - by rewrite -/(cov_at o0 0 0) C0. - by rewrite -/(cov_at o1 0 0) C1. - by rewrite -/(cov_at o2 0 0) C2. - by rewrite -/(cov_at o3 0 0) C3.
    rewrite /fr_mu. do ! congr (_ :: _); congr (_, _); apply/colP => i; rewrite !mxE ord1 /=.
    - by rewrite -/(SpecEwma.mean_at o0 0) M0. - by rewrite -/(SpecEwma.mean_at o1 0) M1. - by rewrite -/(SpecEwma.mean_at o2 0) M2. - by rewrite -/(SpecEwma.mean_at o3 0) M3.
  Qed.
  Lemma fr_half p : List.In p fr_pairs -> exists h, (0 < h)%re /\ p = fr_pair h.
  Proof. move=> [<-|[<-|[]]]; eexists; (split; last reflexivity); lra. Qed.
  Lemma fr_finite p outs o : List.In p fr_pairs -> run p fr_f = Ok outs -> List.In o outs -> finite_item 1 o.
  Proof.
    move=> Hp E Ho. have [h [Hh Eh]] := fr_half Hp. subst p. have [outs' [E' [_ [_ H]]]] := fr_expert Hh. apply: H.
    move: E; rewrite E' => -[->]. exact: Ho.
  Qed.

  Lemma fr_comb : comb_of fr_f = from_sigmas LA fr_s fr_rows (Some fr_m).
  Proof.
    have [o1 [E1 [C1 [M1 _]]]] := fr_expert Rlt_0_1.
    have H2 : (0 < / 2)%re by lra.
    have [o2 [E2 [C2 [M2 _]]]] := fr_expert H2.
    pose outs p := match run p fr_f with Ok o => o | Raise _ => nil end.
    have Eo p : List.In p fr_pairs -> run p fr_f = Ok (outs p).
      by rewrite /outs => -[<-|[<-|[]]]; rewrite ?E1 ?E2.
    have X1 : outs (fr_pair 1) = o1 by rewrite /outs E1.
    have X2 : outs (fr_pair (/ 2)) = o2 by rewrite /outs E2.
    have Hnd : List.NoDup (findex fr_f) by apply: increasing_NoDup; case: fr_valid => _ [].
    have [sigmas [means [E [K1 [K2 [D1 [D2 [A1 [A2 _]]]]]]]]] :=
      @is_from_sigmas XR LA fr_label (@fr_mat 1) (@fr_vec 1) fr_f fr_pairs 1 1 None false outs erefl erefl Hnd Eo.
    rewrite E. have Er : rows_of_frame (N := XR) LA (@fr_vec 1) fr_f = fr_rows.
      rewrite /rows_of_frame /fr_rows /=. do ! congr (_ :: _); congr (_, _); apply/matrixP => i j; by rewrite !ord1 !mxE.
    have [L1 L2] : fr_label (fr_pair 1) = "1-1"%string /\ fr_label (fr_pair (/ 2)) = "0.5-0.5"%string by have [-> ->] := fr_labels.
    have Es : fr_s = sigmas.
      apply: kdict_ext.
      - by repeat constructor; cbn; intuition discriminate.
      - by rewrite K1 fr_labels.
      - move=> k. rewrite A1 /fr_pairs [List.map _ _]/= X1 X2 C1 C2 L1 L2 /=. case: (String.eqb_spec k "1-1") => [->//|_]. by case: (String.eqb k "0.5-0.5").
    have Em : fr_m = means.
      apply: kdict_ext.
      - by repeat constructor; cbn; intuition discriminate.
      - by rewrite K2 fr_labels.
      - move=> k. rewrite A2 /fr_pairs [List.map _ _]/= X1 X2 M1 M2 L1 L2 /=. case: (String.eqb_spec k "1-1") => [->//|_]. by case: (String.eqb k "0.5-0.5").
    by rewrite Er Es Em.
  Qed.

  Lemma fr_dicts : dicts fr_s.
  Proof. split; first by repeat constructor; cbn; intuition discriminate. repeat constructor; cbn; intuition lia. Qed.
  Lemma chol1 b a : (0 < b)%re -> (b * b)%re = a -> is_chol (a%:M : 'M[R]_1) b%:M.
  Proof.
    move=> Hb <-. split; first by exact: scalar_mx_is_trig.
    split; first by move=> i; rewrite !ord1 mxE eqxx mulr1n.
    by rewrite tr_scalar_mx -scalar_mxM.
  Qed.
  Lemma spd1 a : (0 < a)%re -> spd (a%:M : 'M[R]_1).
  Proof. move=> Ha. apply: is_chol_spd. apply: (@chol1 (sqrt a)); first exact: sqrt_lt_R0. apply: sqrt_sqrt. lra. Qed.
  Lemma fr_spd : all_spd fr_s.
  Proof.
    have H h k : (0 < h)%re -> (k < 4)%coq_nat -> spd (fr_cv h k) by move=> Hh Hk; apply: spd1; apply: fr_var_pos.
    move=> ks tS [<-|[<-|[]]] /= [<-|[<-|[<-|[<-|[]]]]] /=; apply: H; (lra || lia).
  Qed.
  Lemma fr_same : same_times LA fr_s.
  Proof. by move=> ks t [<-|[<-|[]]]. Qed.
  Lemma fr_inc : increasing (forecast_times LA fr_s).
  Proof. by split. Qed.
  Lemma fr_mok : means_ok LA fr_s (Some fr_m).
  Proof. by move=> ks [<-|[<-|[]]]; exists fr_mu. Qed.
  Lemma fr_known : returns_known LA fr_s fr_rows.
  Proof. move=> t /= [<-|[<-|[<-|[]]]]; auto. Qed.
  (** The factor of expert h at position k. *)
  Definition fr_fac (h : R) (k : nat) : R := (/ sqrt (fr_var h k))%re.
  Lemma fr_fac_pos h k : (0 < h)%re -> (k < 4)%coq_nat -> (0 < fr_fac h k)%re.
  Proof. move=> Hh Hk. apply: Rinv_0_lt_compat. apply: sqrt_lt_R0. exact: fr_var_pos. Qed.
  Lemma fr_pf h k : (0 < h)%re -> (k < 4)%coq_nat -> precision_factor LA (fr_cv h k) = Some (fr_fac h k)%:M.
  Proof.
    move=> Hh Hk. have Hv := fr_var_pos h k Hh Hk. rewrite /precision_factor /= (spd_unit (spd1 Hv)). apply: chol_unique.
    rewrite invmx_scalar RinvE; last by lra. apply: chol1; first exact: fr_fac_pos.
    rewrite /fr_fac -Rinv_mult sqrt_sqrt //. lra.
  Qed.
  Lemma fr_facE t k : (k < 4)%coq_nat -> t = Z.of_nat k.+1 -> fac fr_s t 0 = (fr_fac 1 k)%:M /\ fac fr_s t 1 = (fr_fac (/ 2) k)%:M.
  Proof.
    move=> Hk ->. have H2 : (0 < / 2)%re by lra.
    case: k Hk => [|[|[|[|k]]]] Hk; try lia; rewrite /fac /factor /= ?(fr_pf Rlt_0_1) ?(fr_pf H2) //; lia.
  Qed.
  Lemma fr_mean t k : mean_of (Some fr_m) fr_s k t = 0.
  Proof.
    rewrite /mean_of. case: k => [|[|k]] /=.
    - by do 4 (case: ifP => // _).
    - by do 4 (case: ifP => // _).
    - by case: k.
  Qed.
  Lemma fr_sq h k : (0 < h)%re -> (k < 4)%coq_nat -> (fr_fac h k * fr_fac h k * fr_var h k = 1)%re.
  Proof.
    move=> Hh Hk. have Hv := fr_var_pos h k Hh Hk. have Hs := sqrt_lt_R0 _ Hv. rewrite /fr_fac.
    rewrite -[X in (_ * X)%re](sqrt_sqrt (fr_var h k)); last by lra. field. lra.
  Qed.
  Lemma fr_det k l : (k < 4)%coq_nat -> (l < 4)%coq_nat -> (fr_var 1 k * fr_var (/ 2) l <> fr_var 1 l * fr_var (/ 2) k)%re ->
    (fr_fac 1 k * fr_fac (/ 2) l - fr_fac 1 l * fr_fac (/ 2) k <> 0)%re.
  Proof.
    move=> Hk Hl Hne E. apply: Hne. have H2 : (0 < / 2)%re by lra.
    have := fr_sq Rlt_0_1 Hk; have := fr_sq Rlt_0_1 Hl; have := fr_sq H2 Hk; have := fr_sq H2 Hl.
    have {E} : (fr_fac 1 k * fr_fac (/ 2) l = fr_fac 1 l * fr_fac (/ 2) k)%re by lra.
    move: (fr_fac 1 k) (fr_fac (/ 2) l) (fr_fac 1 l) (fr_fac (/ 2) k) (fr_var 1 k) (fr_var (/ 2) l) (fr_var 1 l) (fr_var (/ 2) k) => a b c d A B C D E E1 E2 E3 E4.
    have Ea : (a * b * (a * b) = c * d * (c * d))%re by rewrite E.
    have E5 : (a * b * (a * b) * (A * B) = 1)%re by transitivity ((a * a * A) * (b * b * B))%re; [ring|nra].
    have E6 : (c * d * (c * d) * (C * D) = 1)%re by transitivity ((c * c * C) * (d * d * D))%re; [ring|nra].
    rewrite -Ea in E6. have Hn : (a * b * (a * b) <> 0)%re by move=> H0; rewrite H0 in E5; lra.
    apply: (Rmult_eq_reg_l (a * b * (a * b))) => //. lra.
  Qed.
  Lemma fr_pair_term k y0 y1 u r : (k < 4)%coq_nat -> return_at LA fr_rows u = r%:M -> (0 < r)%re ->
    let z := (avgL fr_s (Z.of_nat k.+1) [:: y0; y1])^T *m ret fr_s fr_rows u - avgN fr_s (Some fr_m) (Z.of_nat k.+1) [:: y0; y1] in
    z = 0 -> (y0 * fr_fac 1 k + y1 * fr_fac (/ 2) k = 0)%re.
  Proof.
    move=> Hk Hr H0 z. rewrite /z /avgN /avg_nu big1; last by move=> i _; rewrite fr_mean mulmx0 scaler0.
    rewrite subr0 /ret Hr /avgL /avg_factor [List.length fr_s]/= big_ord_recl big_ord1 /=. have [-> ->] := fr_facE Hk erefl.
    move=> /matrixP/(_ 0 0). rewrite !mxE big_ord1 !mxE /= ?mulr1n. toR => E. apply: (Rmult_eq_reg_r r); lra.
  Qed.
  Lemma fr_quad i : List.In i [:: 1%N; 2%N] -> spd (quad LA fr_s (Some fr_m) fr_rows (window_at LA fr_s 2 i) : 'M[R]_2).
  Proof.
    have G k (u1 u2 : Z) r1 r2 : (k < 3)%coq_nat -> return_at LA fr_rows u1 = r1%:M -> (0 < r1)%re -> return_at LA fr_rows u2 = r2%:M -> (0 < r2)%re ->
      (fr_var 1 k * fr_var (/ 2) k.+1 <> fr_var 1 k.+1 * fr_var (/ 2) k)%re ->
      spd (pairs_quad LA fr_s (Some fr_m) fr_rows [:: (Z.of_nat k.+1, u1); (Z.of_nat k.+2, u2)] : 'M[R]_2).
    { move=> Hk R1 P1 R2 P2 /fr_det Hdet. have {}Hdet := Hdet ltac:(lia) ltac:(lia).
      split; first exact (@quad_sym 1 fr_s (Some fr_m) fr_rows _).
      move=> y Hy. have Ey : y = wvec 2 [:: y 0 0; y 1 0].
        apply/colP => j. rewrite !mxE. case: j => [[|[|//]] Hj] /=; congr (y _ _); exact: val_inj.
      rewrite Ey. have := @quad_gram 1 fr_s (Some fr_m) fr_rows [:: y 0 0; y 1 0] [:: (Z.of_nat k.+1, u1); (Z.of_nat k.+2, u2)].
      rewrite [List.length fr_s]/= => ->. rewrite big_cons big_seq1 [fst _]/= [fst _]/= [snd _]/= [snd _]/=.
      have T1 := @fr_pair_term k (y 0 0) (y 1 0) u1 r1 ltac:(lia) R1 P1. have T2 := @fr_pair_term k.+1 (y 0 0) (y 1 0) u2 r2 ltac:(lia) R2 P2.
      move: T1 T2. cbv zeta. set z1 := (_ - _). set z2 := (_ - _) => T1 T2.
      case: (boolP (z1 == 0)) => [/eqP E1|N1]; last first.
        apply: Rplus_lt_le_0_compat; [exact: nsq_gt0|exact: nsq_ge0].
      apply: Rplus_le_lt_0_compat; first exact: nsq_ge0. apply: nsq_gt0. apply/eqP => E2.
      have {}T1 := T1 E1. have {}T2 := T2 E2. case/eqP: Hy. rewrite Ey. move: (y 0 0) (y 1 0) T1 T2 {Ey E1 E2 z1 z2} => y0 y1 T1 T2.
      move: Hdet T1 T2. move: (fr_fac 1 k) (fr_fac (/ 2) k) (fr_fac 1 k.+1) (fr_fac (/ 2) k.+1) => a b c d D T1 T2.
      have Y0 : y0 = 0.
        apply: (Rmult_eq_reg_r (a * d - c * b)) => //. transitivity (d * (y0 * a + y1 * b) - b * (y0 * c + y1 * d))%re; first by ring. rewrite T1 T2. toR; ring.
      have Y1 : y1 = 0.
        apply: (Rmult_eq_reg_r (a * d - c * b)) => //. transitivity (a * (y0 * c + y1 * d) - c * (y0 * a + y1 * b))%re; first by ring. rewrite T1 T2. toR; ring.
      rewrite Y0 Y1. apply/colP => j. rewrite !mxE. by case: j => [[|[|//]] Hj]. }
    have [V10 [V11 V12]] := fr_var_1. have [V20 [V21 V22]] := fr_var_2.
    move=> [<-|[<-|[]]]; rewrite quad_pairs_at.
    - have -> : pairs_at LA fr_s 2 1 = [:: (1%z, 2%z); (2%z, 3%z)] by [].
      apply: (G 0%N _ _ 2%re 4%re) => //; [lia|lra|lra|]. rewrite V10 V11 V20 V21. lra.
    - have -> : pairs_at LA fr_s 2 2 = [:: (2%z, 3%z); (3%z, 4%z)] by [].
      apply: (G 1%N _ _ 4%re 8%re) => //; [lia|lra|lra|]. rewrite V11 V12 V21 V22. lra.
  Qed.
  Theorem fr_run : exists c r3 r4, comb_of fr_f = Ok c /\ solve LA (@best 1 2) c (Some 2%N) None = ([:: Some r3; Some r4], None).
  Proof.
    have Hq i : List.In i (positions (scored LA fr_s) (eff (List.length (forecast_times LA fr_s)) (Some 2%N)) None) ->
        spd (quad LA fr_s (Some fr_m) fr_rows (window_at LA fr_s (eff (List.length (forecast_times LA fr_s)) (Some 2%N)) i) : 'M[R]_2).
      exact: (@fr_quad i).
    have [c [items [Hc [Hs [Hlen Hall]]]]] := @healthy_best 1 fr_s (Some fr_m) fr_rows fr_dicts fr_same fr_spd fr_mok fr_inc fr_known
      (le_S _ _ (le_S _ _ (le_n 2))) (Some 2%N) None (fun ts H => ltac:(discriminate H)) Hq (@best 1 2) (@best_opt 1 2) (@best_total 1 2).
    rewrite [RHS]/= in Hlen. case: items Hs Hlen Hall => [//|[r3|] [//|[r4|] [|//]]] Hs _ Hall;
      try by inversion Hall as [|? ? A1 A2]; subst; inversion A2.
    exists c, r3, r4. by rewrite fr_comb.
  Qed.
  Lemma fr_K : List.length (firsts (List.map fr_label fr_pairs)) = 2%N.
  Proof. by rewrite fr_labels. Qed.
  Theorem fr_prefix c : comb_of fr_f = Ok c -> exists c3, comb_of (frame_take 3 fr_f) = Ok c3.
  Proof.
    have [c0 [r3 [r4 [Hc Hs]]]] := fr_run. move=> _.
    have := @run_no_look_ahead XR LA fr_label (@fr_mat 1) (@fr_vec 1) fr_f 3 fr_pairs 1 1 None false erefl erefl
      (proj1 (proj2 fr_valid)) fr_inj c0 Hc. case E: (comb_of (frame_take 3 fr_f)) => [c3|e]; first by exists c3.
    move=> [_ H]. have := H _ _ _ Hs => HF. have HF1 := List.Forall_inv HF.
    have [_ [_ H2]] := @run_schedule fr_label fr_f fr_x fr_pairs 1 1 None None false 2 fr_K (@fr_mat 1) (@fr_vec 1) (@fr_reads 1) fr_valid (fr_returns false) fr_positive
      (or_introl erefl) ltac:(cbn; lia) fr_moved (fun p outs o H1 H2 H3 => proj1 (fr_finite H1 H2 H3)) c0 _ _ _ (fun h p w Hw => proj1 (@best_opt 1 2 h p w Hw)) Hc Hs.
    have [Et _] := H2 0%N r3 erefl. cbn in HF1. move: HF1. rewrite Et /=. lia.
  Qed.
End Run.
