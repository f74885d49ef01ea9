(** * The order of the assets matters to the combination: a worked case. *)
From Coq Require Import Reals Lra ZArith String List Lia.
Set Warnings "-notation-overridden,-ambiguous-paths".
From mathcomp Require Import all_ssreflect all_fingroup all_algebra.
From Verif Require Import RStruct MatR Num Py ListFacts Combination SpecComb CombFacts CombBuild CombSolve CombRun CombProps CombItems RealLA SpecCombR CombReal CombObj CombOpt CombExact CombExist CombDegen CombOk CombEx SpecMove CombMove.
Set Implicit Arguments.
Unset Strict Implicit.
Unset Printing Implicit Defensive.
Import GRing.Theory.
Local Open Scope ring_scope.
Delimit Scope R_scope with re.
Delimit Scope Z_scope with z.

(** Two experts that issue S1, S2 at times 1 and 2; the return of time 2 is r. *)
Definition two_covs n (S1 S2 : 'M[R]_n) : covs n :=
  [:: ("a"%string, [:: (1%z, S1); (2%z, S1)]); ("b"%string, [:: (1%z, S2); (2%z, S2)])].
Definition two_rets n (r : 'cV[R]_n) : rets n := [:: (1%z, r); (2%z, r)].

Section Two.
  Context (n : nat) (S1 S2 F1 F2 : 'M[R]_n) (r : 'cV[R]_n).
  Hypothesis P1 : spd S1. Hypothesis P2 : spd S2.
  Hypothesis C1 : is_chol (invmx S1) F1. Hypothesis C2 : is_chol (invmx S2) F2.
  Hypothesis Hind : forall a b : R, a *: (F1^T *m r) + b *: (F2^T *m r) = 0 -> a = 0 /\ b = 0.
  Let s := two_covs S1 S2.
  Let LA := RLA n 2.
  Let rr := two_rets r.

  Lemma two_dicts : dicts s.
  Proof. split; first by repeat constructor; cbn; intuition discriminate. repeat constructor; cbn; intuition lia. Qed.
  Lemma two_spd : all_spd s.
  Proof. by move=> ks tS [<-|[<-|[]]] /= [<-|[<-|[]]]. Qed.
  Lemma two_same : same_times LA s.
  Proof. by move=> ks t [<-|[<-|[]]]. Qed.
  Lemma two_inc : increasing (forecast_times LA s).
  Proof. by split. Qed.
  Lemma two_fac t : List.In t [:: 1%z; 2%z] -> fac s t 0 = F1 /\ fac s t 1 = F2.
  Proof.
    have H (S F : 'M[R]_n) : spd S -> is_chol (invmx S) F -> precision_factor LA S = Some F.
      move=> HS HF. rewrite /precision_factor /= (spd_unit HS). exact: chol_unique.
    by move=> [<-|[<-|[]]]; rewrite /fac /factor /= !(H _ _ P1 C1) !(H _ _ P2 C2).
  Qed.
  Lemma two_avgL t w : List.In t [:: 1%z; 2%z] -> avgL s t w = nth 0 w 0 *: F1 + nth 0 w 1 *: F2.
  Proof. move=> Ht. rewrite /avgL /avg_factor [List.length s]/= big_ord_recl big_ord1 /=. by have [-> ->] := two_fac Ht. Qed.
  Lemma two_avgN t w : avgN s None t w = 0.
  Proof. by rewrite /avgN /avg_nu big1 // => k _; rewrite /mean_of mulmx0 scaler0. Qed.

  (** The objective in terms of the weights. *)
  Definition two_obj (w : list R) : R :=
    let L := nth 0 w 0 *: F1 + nth 0 w 1 *: F2 in (\sum_(i < n) ln (L i i) - (/ 2)%re * nsq (L^T *m r))%R.
  Lemma two_term w : term s None rr w (1%z, 2%z) = two_obj w.
  Proof. rewrite /term /two_obj /= two_avgL; last by left. by rewrite two_avgN subr0. Qed.

  Lemma two_run (slv : solver LA) : returns_optimal slv -> (forall h p, (exists w, optimal p w) -> slv h p <> None) ->
    exists c res, from_sigmas LA s rr None = Ok c /\ solve LA slv c (Some 1%N) None = ([:: Some res], None) /\ r_time LA res = 2%z /\
    let w := r_weights LA res in feasible 2 w /\ (forall v, feasible 2 v -> (two_obj v <= two_obj w)%re) /\
    let L := nth 0 w 0 *: F1 + nth 0 w 1 *: F2 in (r_cov LA res : 'M[R]_n) = invmx (L *m L^T).
  Proof.
    move=> Ho Htot.
    have Hq : forall i, List.In i (positions (scored LA s) (eff (List.length (forecast_times LA s)) (Some 1%N)) None) ->
        spd (quad LA s None rr (window_at LA s (eff (List.length (forecast_times LA s)) (Some 1%N)) i) : 'M[R]_2).
      move=> i [<-|[]]. rewrite quad_pairs_at. set l := pairs_at _ _ _ _. have El : l = [:: (1%z, 2%z)] by [].
      rewrite El. split; first exact (@quad_sym n s None rr [:: (1%z, 2%z)]).
      move=> y Hy. have Ey : y = wvec 2 [:: y 0 0; y 1 0].
        apply/colP => k. rewrite !mxE. case: k => [[|[|//]] Hk] /=; congr (y _ _); exact: val_inj.
      rewrite Ey. have := @quad_gram n s None rr [:: y 0 0; y 1 0] [:: (1%z, 2%z)]. rewrite [List.length s]/= => ->.
      rewrite big_seq1 two_avgL; last by left. rewrite two_avgN subr0 /=. apply: nsq_gt0. apply/eqP => E.
      case/eqP: Hy. have [] := Hind (a := y 0 0) (b := y 1 0).
        by rewrite -E linearD /= !trZ mulmxDl -!scalemxAl.
      move=> E0 E1. rewrite Ey E0 E1. apply/colP => k. rewrite !mxE. by case: k => [[|[|//]] Hk].
    have [c [items [Hc [Hs [Hlen Hall]]]]] := @healthy_best n s None rr two_dicts two_same two_spd I two_inc
      (fun t H => or_intror (or_introl (match H with or_introl E => E | or_intror E => match E with end end)))
      (le_n 2) (Some 1%N) None (fun ts H => ltac:(discriminate H)) Hq slv Ho Htot.
    rewrite [RHS]/= in Hlen. case: items Hs Hlen Hall => [//|[res|] [|//]] Hs _ Hall; last by inversion Hall.
    exists c, res. split=> //. split=> //.
    have [_ [_ N1]] := solve_run LA _ _ _ _ _ _ _ _ two_dicts Hc two_inc Hs.
    have [h [p [Ep Hp]]] := N1 0%N 0%N erefl.
    have [_ [A1 Q1]] := posed_at LA _ _ _ _ _ _ _ Ep.
    have Epa : pairs_at LA s (eff (List.length (forecast_times LA s)) (Some 1%N)) 0 = [:: (1%z, 2%z)] by [].
    rewrite Epa in A1 Q1.
    case Ex: (slv h p) Hp => [x|//] [r1 [Hr [Er]]]. subst r1.
    have O1 := Ho _ _ _ Ex. have [Etm Ew] := combined_time LA _ _ _ _ _ Hr. split; first exact: Etm. rewrite /= Ew.
    have Fx : feasible 2 x by case: O1. split=> //.
    have Ep1 : p = (pairs_diag LA s [:: (1%z, 2%z)], snd p) by rewrite -A1; case: (p).
    split.
      move=> v Fv. case: O1 => _ O1. have := O1 v Fv. rewrite Ep1.
      rewrite !(@objective_closed n s None rr [:: (1%z, 2%z)] p.2) // !big_seq1 !two_term. exact.
    move: Hr. have [Sx _] := Fx. rewrite (@combined_real n s None) //. cbv zeta. rewrite -/(avgL s _ x) [List.nth _ _ _]/= two_avgL; last by right; left.
    by case: ifP => // _ [<-].
  Qed.
End Two.

(** Two by two matrices. *)
Definition m2 (a b c d : R) : 'M[R]_2 := \matrix_(i, j) if i == 0 then (if j == 0 then a else b) else (if j == 0 then c else d).
Definition v2 (a b : R) : 'cV[R]_2 := \col_i if i == 0 then a else b.
Lemma ord2 (i : 'I_2) : i = 0 \/ i = 1.
Proof. case: i => [[|[|//]] Hk]; [left|right]; exact: val_inj. Qed.
Lemma m2P (A B : 'M[R]_2) : A 0 0 = B 0 0 -> A 0 1 = B 0 1 -> A 1 0 = B 1 0 -> A 1 1 = B 1 1 -> A = B.
Proof. move=> H1 H2 H3 H4. apply/matrixP => i j. by case: (ord2 i) => ->; case: (ord2 j) => ->. Qed.
Ltac m2ext := apply: m2P; rewrite !mxE ?big_ord_recl ?big_ord0 ?mxE /=.
Lemma m2_mul a b c d a' b' c' d' : m2 a b c d *m m2 a' b' c' d' = m2 (a * a' + b * c') (a * b' + b * d') (c * a' + d * c') (c * b' + d * d').
Proof. m2ext; by rewrite addr0. Qed.
Lemma m2_tr a b c d : (m2 a b c d)^T = m2 a c b d.
Proof. by m2ext. Qed.
Lemma m2_vec a b c d x y : m2 a b c d *m v2 x y = v2 (a * x + b * y) (c * x + d * y).
Proof. apply/colP => i; rewrite !mxE !big_ord_recl !big_ord0 !mxE /= addr0. by case: (ord2 i) => ->. Qed.
Lemma m2_lin x y a b c d a' b' c' d' : x *: m2 a b c d + y *: m2 a' b' c' d' = m2 (x * a + y * a') (x * b + y * b') (x * c + y * c') (x * d + y * d').
Proof. by m2ext. Qed.
Lemma v2_lin x y a b a' b' : x *: v2 a b + y *: v2 a' b' = v2 (x * a + y * a') (x * b + y * b').
Proof. apply/colP => i; rewrite !mxE /=. by case: (ord2 i) => ->. Qed.
Lemma m2_1 : m2 1 0 0 1 = 1%:M.
Proof. by m2ext. Qed.
Lemma m2_chol a c d : (0 < a)%re -> (0 < d)%re -> is_chol (m2 a 0 c d *m (m2 a 0 c d)^T) (m2 a 0 c d).
Proof.
move=> Ha Hd. split.
  apply/is_trig_mxP => i j. case: (ord2 i) => ->; case: (ord2 j) => -> //= _. by rewrite mxE.
split=> // i. by case: (ord2 i) => ->; rewrite mxE.
Qed.
Lemma nsq_v2 x y : nsq (v2 x y) = (x * x + y * y)%re.
Proof. rewrite /nsq /qf. rewrite ?mxE !big_ord_recl !big_ord0 !mxE /=. rewrite ?mxE /= ?big_ord_recl ?big_ord0 ?mxE /=. by rewrite ?addr0. Qed.

(** The same two assets listed in the two orders. *)
Definition oF : 'M[R]_2 := m2 1 0 3%re 4%re.
Definition oF' : 'M[R]_2 := m2 5%re 0 (3 / 5)%re (4 / 5)%re.
Definition oS : 'M[R]_2 := invmx (oF *m oF^T).
Definition oS' : 'M[R]_2 := invmx (oF' *m oF'^T).
Definition o_covs : covs 2 := two_covs 1%:M oS.
Definition o_rets : rets 2 := two_rets (v2 4%re (1 / 2)%re).
Definition oT : 'M[R]_2 := perm_mx (tperm 0 1).
Lemma oTE : oT = m2 0 1 1 0.
Proof. apply: m2P; rewrite !mxE /=; by rewrite ?tpermL ?tpermR. Qed.
Lemma oT_sym : oT^T = oT.
Proof. by rewrite oTE m2_tr. Qed.
Lemma oT_inv : oT *m oT = 1%:M.
Proof. rewrite oTE m2_mul -m2_1. by congr m2; toR; eqR; ring. Qed.
Lemma oT_unit : oT \in unitmx.
Proof. by case: (mulmx1_unit oT_inv). Qed.
Lemma oF_chol : is_chol (oF *m oF^T) oF.
Proof. apply: m2_chol; toR; lra. Qed.
Lemma oF_chol' : is_chol (oF' *m oF'^T) oF'.
Proof. apply: m2_chol; toR; lra. Qed.
Lemma oFF : oT *m (oF *m oF^T) *m oT = oF' *m oF'^T.
Proof. rewrite oTE /oF /oF' !m2_tr !m2_mul. by congr m2; toR; eqR; field. Qed.
Lemma inv_conj (A : 'M[R]_2) : A \in unitmx -> oT *m invmx A *m oT = invmx (oT *m A *m oT).
Proof.
move=> HA. have Hu : oT *m A *m oT \in unitmx by rewrite !unitmx_mul HA oT_unit.
have E : oT *m invmx A *m oT *m (oT *m A *m oT) = 1%:M.
  by rewrite -!mulmxA (mulmxA oT oT) oT_inv mul1mx (mulmxA (invmx A)) mulVmx // mul1mx oT_inv.
by rewrite -[LHS]mulmx1 -(mulmxV Hu) mulmxA E mul1mx.
Qed.
Lemma oS_swap : oT *m oS *m oT^T = oS'.
Proof. rewrite oT_sym inv_conj ?oFF // (spd_unit (is_chol_spd oF_chol)) //. Qed.
Lemma o_move : move_covs oT o_covs = two_covs 1%:M oS' /\ move_rets oT o_rets = two_rets (v2 (1 / 2)%re 4%re).
Proof.
have E : oT *m v2 4%re (1 / 2)%re = v2 (1 / 2)%re 4%re by rewrite oTE m2_vec; congr v2; toR; eqR; ring.
rewrite /move_covs /move_rets /o_covs /two_covs /o_rets /two_rets /= !E oS_swap mulmx1 oT_sym oT_inv. by [].
Qed.

Lemma obj_m2 a c d x y w0 w1 : two_obj 1%:M (m2 a 0 c d) (v2 x y) [:: w0; w1] =
  (ln (w0 + w1 * a) + ln (w0 + w1 * d) - / 2 * (((w0 + w1 * a) * x + w1 * c * y) * ((w0 + w1 * a) * x + w1 * c * y) + ((w0 + w1 * d) * y) * ((w0 + w1 * d) * y)))%re.
Proof.
rewrite /two_obj /= -m2_1 m2_lin m2_tr m2_vec nsq_v2 big_ord_recl big_ord1 !mxE /=. toR.
eqR. congr (ln _ + ln _ - / 2 * _)%re; eqR; ring.
Qed.
Lemma feas2 w : feasible 2 w -> exists w0 w1, w = [:: w0; w1] /\ (0 <= w0)%re /\ (0 <= w1)%re /\ (w0 + w1 = 1)%re.
Proof.
case=> Hl [Hp Hs]. case: w Hl Hp Hs => [//|w0 [//|w1 [|//]]] _ Hp Hs. exists w0, w1. split=> //.
split; first exact: (Hp 0%N erefl). split; first exact: (Hp 1%N erefl).
by move: Hs; rewrite big_ord_recl big_ord1.
Qed.
Lemma feas2_intro w0 w1 : (0 <= w0)%re -> (0 <= w1)%re -> (w0 + w1 = 1)%re -> feasible 2 [:: w0; w1].
Proof.
move=> H0 H1 Hs. split=> //. split; first by case=> [|[|//]].
by rewrite big_ord_recl big_ord1.
Qed.

(** First order: all the weight goes to the first expert. *)
Lemma order1_best w : feasible 2 w -> (forall v, feasible 2 v -> (two_obj 1%:M oF (v2 4%re (1 / 2)%re) v <= two_obj 1%:M oF (v2 4%re (1 / 2)%re) w)%re) ->
  w = [:: 1%re; 0%re].
Proof.
move=> Fw Hw. have [w0 [w1 [Ew [P0 [P1 Es]]]]] := feas2 Fw.
have := Hw _ (@feas2_intro 1%re 0%re ltac:(lra) ltac:(lra) ltac:(lra)). rewrite Ew !obj_m2.
have -> : w0 = (1 - w1)%re by lra.
replace (1 + 0 * 1)%re with 1%re by ring. replace (1 + 0 * 4)%re with 1%re by ring. replace (1 - w1 + w1 * 1)%re with 1%re by ring.
rewrite ln_1. replace (1 - w1 + w1 * 4)%re with (1 + 3 * w1)%re by ring.
have Hln : (ln (1 + 3 * w1) <= 3 * w1)%re.
  have := exp_ineq1_le (3 * w1)%re. move=> H. rewrite -{2}(ln_exp (3 * w1)%re). apply: ln_le; lra.
move=> H. have : (w1 <= 0)%re by nra. move=> H1. have -> : w1 = 0%re by lra. by congr [:: _; _]; eqR; ring.
Qed.
Lemma order2_best w : feasible 2 w -> (forall v, feasible 2 v -> (two_obj 1%:M oF' (v2 (1 / 2)%re 4%re) v <= two_obj 1%:M oF' (v2 (1 / 2)%re 4%re) w)%re) ->
  exists w0 w1, w = [:: w0; w1] /\ (w0 + w1 = 1)%re /\ (0 < w1)%re.
Proof.
move=> Fw Hw. have [w0 [w1 [Ew [P0 [P1 Es]]]]] := feas2 Fw.
exists w0, w1. split=> //. split=> //. case: P1 => // E1. exfalso.
have := Hw _ (@feas2_intro (9 / 10)%re (1 / 10)%re ltac:(lra) ltac:(lra) ltac:(lra)). rewrite Ew !obj_m2 -E1.
have -> : w0 = 1%re by lra.
replace (1 + 0 * 5)%re with 1%re by ring. replace (1 + 0 * (4 / 5))%re with 1%re by ring. rewrite ln_1.
rewrite -ln_mult; [|lra..]. have := ln_increasing 1%re ((9 / 10 + 1 / 10 * 5) * (9 / 10 + 1 / 10 * (4 / 5)))%re.
rewrite ln_1. move=> H. have {}H := H ltac:(lra) ltac:(lra). move: H. set a := ln _. move=> H H2. lra.
Qed.


Lemma ind2 a b x y : (a * y <> b * x)%re -> forall p q : R, p *: v2 a b + q *: v2 x y = 0 -> p = 0 /\ q = 0.
Proof.
move=> Hdet p q. rewrite v2_lin => E.
have E0 : (p * a + q * x = 0)%re by have /colP /(_ 0) := E; rewrite !mxE.
have E1 : (p * b + q * y = 0)%re by have /colP /(_ 1) := E; rewrite !mxE.
have H1 : (p * (a * y - b * x) = 0)%re.
  replace (p * (a * y - b * x))%re with (y * (p * a + q * x) - x * (p * b + q * y))%re by ring. rewrite E0 E1. ring.
have H2 : (q * (a * y - b * x) = 0)%re.
  replace (q * (a * y - b * x))%re with (a * (p * b + q * y) - b * (p * a + q * x))%re by ring. rewrite E0 E1. ring.
split; [move: H1|move: H2] => /Rmult_integral [//|H]; exfalso; apply: Hdet; lra.
Qed.
Lemma chol_1 : is_chol (invmx (1%:M : 'M[R]_2)) 1%:M.
Proof. rewrite invmx1 -{1}(mul1mx 1%:M) -{3}m2_1 -{2}trmx1 -m2_1. apply: m2_chol; toR; lra. Qed.
Lemma spd_1 : spd (1%:M : 'M[R]_2).
Proof. rewrite -invmx1. exact: is_chol_spd chol_1. Qed.
Lemma chol_inv (F : 'M[R]_2) : is_chol (F *m F^T) F -> spd (invmx (F *m F^T)) /\ is_chol (invmx (invmx (F *m F^T))) F.
Proof. move=> H. rewrite invmxK. split=> //. apply: spd_inv. exact: is_chol_spd H. Qed.

Theorem order_matters : exists (sigmas : covs 2) (returns : rets 2), dicts sigmas /\ all_spd sigmas /\
  increasing (forecast_times (RLA 2 (List.length sigmas)) sigmas) /\
  let T : 'M[R]_2 := perm_mx (tperm 0 1) in
  let LA := RLA 2 (List.length sigmas) in let LA' := RLA 2 (List.length (move_covs T sigmas)) in
  forall (slv : solver LA) (slv' : solver LA'), returns_optimal slv -> returns_optimal slv' ->
  (forall h p, (exists w, optimal p w) -> slv h p <> None) -> (forall h p, (exists w, optimal p w) -> slv' h p <> None) ->
  exists c c' r r', from_sigmas LA sigmas returns None = Ok c /\ from_sigmas LA' (move_covs T sigmas) (move_rets T returns) None = Ok c' /\
    solve LA slv c (Some 1%N) None = ([:: Some r], None) /\ solve LA' slv' c' (Some 1%N) None = ([:: Some r'], None) /\
    r_time LA r = r_time LA' r' /\
    r_weights LA' r' <> r_weights LA r /\ (r_cov LA' r' : 'M[R]_2) <> T *m (r_cov LA r : 'M[R]_2) *m T^T.
Proof.
have [SS CS] := chol_inv oF_chol. have [SS' CS'] := chol_inv oF_chol'.
exists o_covs, o_rets. split; first exact: two_dicts. split; first exact: (two_spd spd_1 SS). split; first exact: two_inc.
move=> T LA. rewrite -/oT in T *. rewrite /T. have [-> ->] := o_move. move=> slv slv' Ho Ho' Ht Ht'.
have I1 : forall p q : R, p *: ((1%:M : 'M[R]_2)^T *m v2 4%re (1 / 2)%re) + q *: (oF^T *m v2 4%re (1 / 2)%re) = 0 -> p = 0 /\ q = 0.
  rewrite trmx1 mul1mx /oF m2_tr m2_vec. apply: ind2. toR. lra.
have I2 : forall p q : R, p *: ((1%:M : 'M[R]_2)^T *m v2 (1 / 2)%re 4%re) + q *: (oF'^T *m v2 (1 / 2)%re 4%re) = 0 -> p = 0 /\ q = 0.
  rewrite trmx1 mul1mx /oF' m2_tr m2_vec. apply: ind2. toR. lra.
have [c [r [Hc [Hs [Et [Fw [Ow Ec]]]]]]] := two_run spd_1 SS chol_1 CS I1 Ho Ht.
have [c' [r' [Hc' [Hs' [Et' [Fw' [Ow' Ec']]]]]]] := two_run spd_1 SS' chol_1 CS' I2 Ho' Ht'.
exists c, c', r, r'. split; first exact: Hc. split; first exact: Hc'. split; first exact: Hs. split; first exact: Hs'.
have Ew := order1_best Fw Ow. have [w0 [w1 [Ew' [Esum Hpos]]]] := order2_best Fw' Ow'.
split. 2: split.
- by rewrite Et; symmetry; exact: Et'.
- move=> E. rewrite Ew' Ew in E. case: E => _ E. move: Hpos. rewrite E. lra.
- rewrite Ew /= in Ec. rewrite Ew' /= in Ec'. move=> E.
  have E1 : (r_cov (RLA 2 2) r : 'M[R]_2) = 1%:M.
    rewrite Ec. have -> : 1%re *: (1%:M : 'M[R]_2) + 0%re *: oF = 1%:M by rewrite scale1r scale0r addr0.
    by rewrite trmx1 mulmx1 invmx1.
  have E2 : (r_cov (RLA 2 2) r' : 'M[R]_2) = 1%:M by rewrite [LHS]E E1 mulmx1 oT_sym oT_inv.
  rewrite Ec' in E2. have := congr1 (@invmx _ _) E2. rewrite invmxK invmx1 -m2_1 m2_lin m2_tr m2_mul => /matrixP /(_ 0 0).
  rewrite !mxE /=. toR. move=> H. have {}H : ((w0 * 1 + w1 * 5) * (w0 * 1 + w1 * 5) + (w0 * 0 + w1 * 0) * (w0 * 0 + w1 * 0) = 1)%re by exact: H.
  have E0 : w0 = (1 - w1)%re by lra. rewrite E0 in H. nra.
Qed.
