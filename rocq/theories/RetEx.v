(** * Concrete cases that meet the hypotheses of PropRet.v. *)
From Coq Require Import Reals Lra ZArith String List Lia ClassicalEpsilon.
Set Warnings "-notation-overridden,-ambiguous-paths".
From mathcomp Require Import all_ssreflect all_algebra.
From Verif Require Import RStruct MatR Num Py Spec Combination RetComb SpecRet RetMain RetInv RetPred RetLasso RetTune RetFinal PropRet.
Set Implicit Arguments.
Unset Strict Implicit.
Unset Printing Implicit Defensive.
Import GRing.Theory.
Local Open Scope ring_scope.
Delimit Scope R_scope with re.
Delimit Scope Z_scope with z.

(** two assets, one prediction each, three dates; the returns have a later date *)
Definition ex_idx : seq Z := [:: 1; 2; 3; 4]%z.
Definition ex_times : seq Z := [:: 1; 2; 3]%z.
Definition ex_cols : seq (string * seq R) := [:: ("a"%string, [:: 1; 2; 3; 4]%re); ("b"%string, [:: 1; -1; 0; 2]%re)].
Definition ex_v (a : R) : 'cV[R]_1 := const_mx a.
Definition ex_preds : seq (seq Z * seq 'cV[R]_1) := [:: (ex_times, [:: ex_v 1; ex_v 0; ex_v 3]); (ex_times, [:: ex_v 2; ex_v 5; ex_v (-1)])].
Lemma ex_good : good_data ex_idx ex_cols ex_times ex_preds.
Proof.
  split; first by do !split. split; first by do !split. split; first by move=> c [<-|[<-|[]]]. split; first by move=> p [<-|[<-|[]]].
  split=> //. split=> // t [<-|[<-|[<-|[]]]]; rewrite /ex_idx /=; auto.
Qed.
Lemma ex_nonzero i : (i < 2)%N -> forall k, exists2 s, (s < 2)%N & pred_at ex_preds i s k 0 <> 0.
Proof. case: i => [|[|//]] _ k; exists 0%N => //; rewrite /pred_at /= mxE; toR; lra. Qed.
Lemma ex_aligned : aligned ex_idx ex_times.
Proof. move=> u s [<-|[<-|[<-|[<-|[]]]]]; rewrite /ex_times /=; auto. case: s => [|[|[|s]]] //= _ _; lia. Qed.
Example C47_total_example : exists out, fit ex_idx ex_cols ex_preds 2 (1 / 2)%re = Ok out.
Proof. apply: C47_total ex_good _ _ ex_nonzero ex_aligned => //. lra. Qed.
Example C47_ridge_example : exists out, fit ex_idx ex_cols ex_preds 2 (1 / 2)%re = Ok out /\ out.1.1 = [:: 3]%z /\ map fst out.1.2 = [:: "a"; "b"]%string.
Proof.
  have [out H] := C47_total_example. exists out. split=> //. have [|-> [-> _]] := C47_ridge (m := 2) ex_good isT _ H; first lra. by [].
Qed.
(** the returns have a date between the first two dates of the predictors *)
Definition ex_times2 : seq Z := [:: 1; 3; 4]%z.
Definition ex_preds2 : seq (seq Z * seq 'cV[R]_1) := [:: (ex_times2, [:: ex_v 1; ex_v 0; ex_v 3]); (ex_times2, [:: ex_v 2; ex_v 5; ex_v (-1)])].
Example C47_misaligned_example : fit ex_idx ex_cols ex_preds2 2 (1 / 2)%re = Raise ValueError.
Proof.
  apply: (@C47_misaligned 1 ex_idx ex_cols ex_times2) => //; try lra.
  - split; first by do !split. split; first by do !split. split; first by move=> c [<-|[<-|[]]]. split; first by move=> p [<-|[<-|[]]].
    split=> //. split=> // t [<-|[<-|[<-|[]]]]; rewrite /ex_idx /=; auto.
  - case=> [|[|//]] _ k; exists 0%N => //; rewrite /pred_at /= mxE; toR; lra.
  - move=> H. have := H 2%z 1%N. rewrite /ex_idx /ex_times2 /=. move=> H'. have : List.In 2%z ex_times2 by apply: H'; auto; lia. by case=> [|[|[|[]]]].
Qed.
(** the predictions of the first asset in percent *)
Definition ex_preds100 : seq (seq Z * seq 'cV[R]_1) := [:: (ex_times, [:: ex_v 100; ex_v 0; ex_v 300]); (ex_times, [:: ex_v 2; ex_v 5; ex_v (-1)])].
Example C89_example : exists o o', fit ex_idx ex_cols ex_preds 2 (1 / 2)%re = Ok o /\ fit ex_idx ex_cols ex_preds100 2 (1 / 2)%re = Ok o' /\ o'.1 = o.1.
Proof.
  have [o H] := C47_total_example. have [||Hok _] := @C89_units 1 (fun i _ => if i is 0%N then 100%re else 1) ex_idx ex_cols ex_times ex_preds ex_preds100 2 (1 / 2)%re ex_good isT.
  - case=> [|i] _ _; toR; lra.
  - split=> // [[|[|i]]] //= _; do 2 split=> //; case=> [|[|[|s]]] //= k _; rewrite /pred_at /= !mxE; toR; lra.
  - have [o' [H' [E _]]] := Hok _ H. by exists o, o'.
Qed.
(** double returns *)
Definition ex_cols2 : seq (string * seq R) := [:: ("a"%string, [:: 3; 6; 9; 12]%re); ("b"%string, [:: 3; -3; 0; 6]%re)].
Example C90_example : exists o1 o, fit ex_idx ex_cols ex_preds 2 (1 / 2)%re = Ok o1 /\ fit ex_idx ex_cols2 ex_preds 2 (1 / 2)%re = Ok o /\
  forall i, (i < 2)%N -> nth 0 (col_at o.1.2 i) 0 = 3%re * nth 0 (col_at o1.1.2 i) 0.
Proof.
  have [o1 H1] := C47_total_example. have [|||o2 [o [H2 [H Hl]]]] := @C90_linear 1 1 2%re ex_idx ex_cols ex_cols ex_cols2 ex_times ex_preds 2 (1 / 2)%re o1 ex_good isT _ _ _ H1.
  - by split=> // c [<-|[<-|[]]].
  - by split=> // c [<-|[<-|[]]].
  - case=> [|[|i]] [|[|[|[|j]]]] //=; rewrite /col_at /= ?nth_nil; toR; lra.
  - exists o1, o. split=> //. split=> // i Hi. have [_ ->] := Hl i 0%N Hi isT. move: H2. rewrite H1 => [] [] <-. move: (nth _ _ _) => a. Rring.
Qed.
Lemma nodup123 : List.NoDup [:: 1; 2; 3]%z.
Proof. repeat constructor; rewrite /=; intuition lia. Qed.
Example C91_example : exists cols, ewma_predictors [:: 1; 2; 3]%z [:: Some 1%re; None; Some 5%re] [:: 1; 2]%re = Ok ([:: 2; 3]%z, cols) /\
  nth None (nth (0, [::]) cols 0).2 1 = past_mean (half_decay 1) (fun s => nth None [:: Some 1%re; None; Some 5%re] s) 2.
Proof.
  have Hh : forall h, List.In h [:: 1; 2]%re -> (0 < h)%re by move=> h [<-|[<-|[]]]; lra.
  have Hn : List.NoDup [:: 1; 2]%re by repeat constructor; rewrite /=; intuition lra.
  have [cols [H [_ Hv]]] := C91_value (xs := [:: Some 1%re; None; Some 5%re]) nodup123 erefl Hh Hn.
  exists cols. split=> //. have [_] := Hv 0%N 2%N isT isT. by [].
Qed.
(** lag -1 is the next return *)
Example C92_example : exists cols, daily_predictors [:: 1; 2; 3]%z [:: Some 1%re; Some 2%re; Some 5%re] [:: 1; -1]%z = Ok ([:: 1; 2; 3]%z, cols) /\
  nth None (nth (Z0, [::]) cols 1).2 0 = Some 2%re /\ nth None (nth (Z0, [::]) cols 0).2 1 = Some 1%re.
Proof.
  have Hn : List.NoDup [:: 1; -1]%z by repeat constructor; rewrite /=; intuition lia.
  have [cols [H [_ Hv]]] := C92_value (xs := [:: Some 1%re; Some 2%re; Some 5%re]) nodup123 erefl Hn.
  exists cols. split=> //. split; [exact: (Hv 1%N 0%N)|exact: (Hv 0%N 1%N)].
Qed.
(** a solver that finds a minimiser if there is one *)
Definition ex_solve K : lsolver K := fun f =>
  match excluded_middle_informative (exists w, minimiser f w) with
  | left H => LSolved (proj1_sig (constructive_indefinite_description _ H))
  | right _ => LNone K
  end.
Lemma ex_solve_ok K f w : @ex_solve K f = LSolved w -> minimiser f w.
Proof. rewrite /ex_solve. case: excluded_middle_informative => // H [] <-. exact: proj2_sig. Qed.
Example C93_example : exists out, old_fit (@ex_solve 1) (Some (mkOld 1 2 (1 / 2)%re)) ex_idx [:: 1; 2; 3; 4]%re ex_times [:: ex_v 1; ex_v 0; ex_v 3] = Ok out /\
  out.1.1 = [:: 3]%z.
Proof.
  rewrite /old_fit /= /lasso_at /= RltbF; last lra. rewrite /ex_solve. by case: excluded_middle_informative => H /=; eexists.
Qed.
Example C93_large_example : minimiser (lasso_loss 1 5%re (fun _ => 1%re) (fun _ => ex_v 1) 1) (0 : 'cV[R]_1).
Proof.
  move=> w. rewrite /lasso_loss !big_ord1 /forecast !big_ord1 !mxE. move: (fun_of_matrix w _ _) => a. rewrite mulr0 Rabs_R0. toR.
  rewrite /Rabs. case: Rcase_abs => H; nra.
Qed.
Lemma ex_solve_finds K : (forall f w, @ex_solve K f = LSolved w -> minimiser f w) /\ (forall f, @ex_solve K f <> LFailed K) /\ (forall f w, minimiser f w -> @ex_solve K f <> LNone K).
Proof.
  split; first exact: ex_solve_ok. split=> [f|f w Hw]; rewrite /ex_solve; case: excluded_middle_informative => // H. by case: H; exists w.
Qed.
(** Two equal predictors, returns 1 and 2, no penalty: every pair of weights with sum 1 is a solution. *)
Definition ex_w2 (a b : R) : 'cV[R]_2 := \col_i (if i == ord0 then a else b).
Lemma ex_w2_min a b : (a + b = 1)%re -> minimiser (lasso_loss 2 0 (fun s => INR s.+1) (fun s => ex_w2 (INR s.+1) (INR s.+1)) 2) (ex_w2 a b).
Proof.
  move=> Hab w. have E v : lasso_loss 2 0 (fun s => INR s.+1) (fun s => ex_w2 (INR s.+1) (INR s.+1)) 2 v = (5 * ((1 - v ord0 ord0 - v (lift ord0 ord0) ord0) * (1 - v ord0 ord0 - v (lift ord0 ord0) ord0)))%re.
    rewrite /lasso_loss /forecast !big_ord_recl !big_ord0 !mxE /=. move: (v ord0 ord0) (v (lift ord0 ord0) ord0) => p q. toR. ring.
  rewrite !E !mxE /=. have -> : (1 - a - b = 0)%re by lra. rewrite Rmult_0_l Rmult_0_r. apply: Rmult_le_pos; first lra. exact: Rle_0_sqr.
Qed.
Example C93_same_fit_example : ex_w2 1 0 <> ex_w2 0 1 /\ forall j, (j < 2)%N -> forecast (ex_w2 (INR (1 - j).+1) (INR (1 - j).+1)) (ex_w2 1 0) = forecast (ex_w2 (INR (1 - j).+1) (INR (1 - j).+1)) (ex_w2 0 1).
Proof.
  split; first by move/colP/(_ ord0); rewrite !mxE /=; toR; lra.
  have H1 := @ex_w2_min 1 0 ltac:(lra). have H2 := @ex_w2_min 0 1 ltac:(lra). have [H _] := C93_same_fit (Rle_refl 0) H1 H2. exact: H.
Qed.
Example C95_total_example : exists out, ewma_return_combination (@ex_solve 1) [:: 1; 2; 3]%z [:: 1; 2; 3]%re [:: 1; 2; 3]%z [:: ex_v 1; ex_v 0; ex_v 3] (1 / 2)%re 2 = Ok out /\ out.1.1 = [:: 3]%z.
Proof.
  have [|//|//|//||out [H1 [H2 _]]] := @C95_total 1 (@ex_solve 1) [:: 1; 2; 3]%z [:: 1; 2; 3]%re [:: ex_v 1; ex_v 0; ex_v 3] 2 (1 / 2)%re _ _ _ _ _ (ex_solve_finds 1); [by []|lra|].
  by exists out.
Qed.
Example C94_example : exists out, tune_alpha ex_idx ex_cols ex_preds [:: (1 / 2)%re; 1] 2 = Ok out.
Proof.
  have [o1 H1] := C47_total_example. have [|o2 H2] := @C47_total 1 ex_idx ex_cols ex_times ex_preds 2 1 ex_good isT _ ex_nonzero ex_aligned; first by toR; lra.
  rewrite /tune_alpha. cbn [mapM]. rewrite H1 H2. cbn [bind]. have [|E1 [Ec1 _]] := C47_ridge (m := 2) ex_good isT _ H1; first lra. have [|E2 [Ec2 _]] := C47_ridge (m := 2) ex_good isT _ H2; first by toR; lra.
  rewrite E1 E2 /=. case: (o1.1.2) Ec1 => [//|c1 l1] _. case: (o2.1.2) Ec2 => [//|c2 l2] _. by eexists.
Qed.
