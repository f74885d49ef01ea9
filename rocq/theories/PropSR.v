(** * C104: yearly Sharpe ratios (experiments/utils/experiment_utils.py:48-69, plot=False). *)
From Coq Require Import Reals ZArith List Lia Lra Permutation.
From Verif Require Import Num YearlySR SpecSR SRProps.
Import ListNotations.
Local Open Scope R_scope.

(** One value for every year from the first to the last year with more than 100 returns; a year in between that has 100 or fewer
    gets NaN, every other one its annualised Sharpe ratio. *)
Theorem C104_years rets :
  (yearly_SR rets = [] /\ forall y, ~ full_year rets y) \/
  exists a b, full_year rets a /\ full_year rets b /\ (forall y, full_year rets y -> (a <= y <= b)%Z) /\
    map fst (yearly_SR rets) = map (fun k => (a + Z.of_nat k)%Z) (seq 0 (Z.to_nat (b - a + 1))) /\
    forall y v, In (y, v) (yearly_SR rets) -> (full_year rets y -> annual_SR (year_rets y rets) v) /\ (~ full_year rets y -> v = NaN).
Proof. exact (sr_spec rets). Qed.
Print Assumptions C104_years.

(** The order of the days does not matter; nor does a positive leverage. *)
Theorem C104_order rets rets' : Permutation rets rets' -> yearly_SR rets = yearly_SR rets'.
Proof. exact (sr_perm rets rets'). Qed.
Print Assumptions C104_order.
Theorem C104_leverage c rets : 0 < c -> yearly_SR (map (fun p => (fst p, c * snd p)) rets) = yearly_SR rets.
Proof. exact (sr_lever c rets). Qed.
Print Assumptions C104_leverage.

(** ** A concrete case: 102 days in 2000, one in 2001, 101 equal positive returns in 2002. *)
Definition ex_rets : list (Z * R) :=
  repeat (2000%Z, 1) 51 ++ repeat (2000%Z, 3) 51 ++ [(2001%Z, 5)] ++ repeat (2002%Z, 1) 101.
Definition ex_2000 : list R := repeat 1 51 ++ repeat 3 51.
Example ex_years : year_rets 2000 ex_rets = ex_2000 /\ year_rets 2001 ex_rets = [5] /\ year_rets 2002 ex_rets = repeat 1 101.
Proof. repeat split; reflexivity. Qed.
Example ex_full y : full_year ex_rets y <-> y = 2000%Z \/ y = 2002%Z.
Proof.
  unfold full_year. split.
  - intros H. destruct (Z.eq_dec y 2000) as [->|H0]; [now left|]. destruct (Z.eq_dec y 2002) as [->|H2]; [now right|]. exfalso.
    assert (Hl : (length (year_rets y ex_rets) <= 1)%nat); [|lia]. unfold year_rets, ex_rets. rewrite map_length, !filter_app, !app_length.
    assert (R : forall z v n, z <> y -> filter (fun p : Z * R => Z.eqb (fst p) y) (repeat (z, v) n) = []).
    { intros z v n Hz. induction n as [|n IH]; [reflexivity|]. simpl. destruct (Z.eqb_spec z y); [contradiction|exact IH]. }
    rewrite !R by congruence. cbn [filter app fst length]. destruct (Z.eqb 2001 y); simpl; lia.
  - intros [-> | ->]; [rewrite (proj1 ex_years)|rewrite (proj2 (proj2 ex_years))]; unfold ex_2000; rewrite ?app_length, !repeat_length; lia.
Qed.
Lemma sum_repeat x n : fold_right Rplus 0 (repeat x n) = INR n * x.
Proof. induction n as [|n IH]; [simpl; ring|]. cbn [repeat fold_right]. rewrite IH, S_INR. ring. Qed.
Lemma sum_app l l' : fold_right Rplus 0 (l ++ l') = fold_right Rplus 0 l + fold_right Rplus 0 l'.
Proof. induction l as [|x l IH]; cbn [app fold_right]; [ring|]. rewrite IH. ring. Qed.
Lemma map_repeat' (f : R -> R) x n : map f (repeat x n) = repeat (f x) n.
Proof. induction n as [|n IH]; [reflexivity|]. simpl. now rewrite IH. Qed.
Example ex_avg : avg ex_2000 = 2.
Proof. unfold avg, ex_2000. rewrite sum_app, !sum_repeat, app_length, !repeat_length. rewrite !INR_IZR_INZ. simpl. lra. Qed.
Example ex_var : sample_var ex_2000 = 102 / 101.
Proof.
  unfold sample_var. rewrite ex_avg. unfold ex_2000. rewrite map_app, !map_repeat', sum_app, !sum_repeat, app_length, !repeat_length. rewrite !INR_IZR_INZ. simpl. lra.
Qed.
Example C104_met : exists v, yearly_SR ex_rets = [(2000%Z, Fin v); (2001%Z, NaN); (2002%Z, PInf)] /\ v = sqrt 252 * (2 / sqrt (102 / 101)).
Proof.
  eexists. split; [|reflexivity]. destruct (C104_years ex_rets) as [[_ H]|[a [b [Ha [Hb [Hab [Ey Hv]]]]]]]; [exfalso; apply (H 2000%Z); apply ex_full; now left|].
  assert (a = 2000%Z) as ->. { specialize (Hab 2000%Z (proj2 (ex_full _) (or_introl eq_refl))). apply ex_full in Ha. lia. }
  assert (b = 2002%Z) as ->. { specialize (Hab 2002%Z (proj2 (ex_full _) (or_intror eq_refl))). apply ex_full in Hb. lia. }
  revert Ey Hv. generalize (yearly_SR ex_rets). intros l Ey Hv. change (map fst l = [2000%Z; 2001%Z; 2002%Z]) in Ey. destruct l as [|[y0 v0] [|[y1 v1] [|[y2 v2] [|? ?]]]]; try discriminate. injection Ey as -> -> ->.
  assert (H0 := Hv _ _ (or_introl eq_refl)). assert (H1 := Hv _ _ (or_intror (or_introl eq_refl))). assert (H2 := Hv _ _ (or_intror (or_intror (or_introl eq_refl)))).
  f_equal; [f_equal|f_equal; [f_equal|f_equal; f_equal]].
  - destruct H0 as [H0 _]. destruct (H0 (proj2 (ex_full _) (or_introl eq_refl))) as [H _]. rewrite (proj1 ex_years), ex_avg, ex_var in H. apply H. lra.
  - apply H1. intros H. apply ex_full in H. lia.
  - destruct H2 as [H2 _]. destruct (H2 (proj2 (ex_full _) (or_intror eq_refl))) as [_ H]. rewrite (proj2 (proj2 ex_years)) in H.
    assert (A : avg (repeat 1 101) = 1). { unfold avg. rewrite sum_repeat, repeat_length, INR_IZR_INZ. simpl. lra. }
    assert (V : sample_var (repeat 1 101) = 0). { unfold sample_var. rewrite A, map_repeat', sum_repeat, repeat_length, INR_IZR_INZ. simpl. lra. }
    rewrite A in H. apply (H V). lra.
Qed.
