(** * yearly_SR: proofs. *)
From Coq Require Import Reals ZArith List Lia Lra Permutation.
From Verif Require Import Num YearlySR SpecSR.
Import ListNotations.
Local Open Scope R_scope.

Lemma in_year_kept y rets : in_year y (keep_years rets) = if Nat.ltb 100 (length (in_year y rets)) then in_year y rets else [].
Proof.
  unfold in_year at 1, keep_years. set (n := fun y => length (in_year y rets)). fold (n y).
  change (filter _ rets) with (filter (fun p : Z * R => Nat.ltb 100 (n (fst p))) rets). clearbody n. unfold in_year.
  induction rets as [|[z v] l IH]; simpl; [now destruct (Nat.ltb _ _)|].
  destruct (Z.eqb_spec z y) as [->|Hz].
  - destruct (Nat.ltb 100 (n y)) eqn:E; simpl; [rewrite Z.eqb_refl; simpl; now rewrite IH|exact IH].
  - destruct (Nat.ltb 100 (n z)) eqn:E; simpl; [|exact IH]. destruct (Z.eqb_spec z y); [contradiction|exact IH].
Qed.
Lemma kept_years y rets : In y (map fst (keep_years rets)) <-> full_year rets y.
Proof.
  unfold full_year. change (year_rets y rets) with (in_year y rets). rewrite in_map_iff. unfold keep_years. split.
  - intros [[z v] [Ez Hin]]. simpl in Ez. subst z. apply filter_In in Hin. destruct Hin as [_ H]. now apply PeanoNat.Nat.ltb_lt in H.
  - intros H. destruct (in_year y rets) as [|v l] eqn:E; [simpl in H; lia|].
    assert (Hv : In v (in_year y rets)) by (rewrite E; now left). unfold in_year in Hv. apply in_map_iff in Hv. destruct Hv as [[z w] [_ Hin]].
    apply filter_In in Hin. destruct Hin as [Hin Hz]. simpl in Hz. apply Z.eqb_eq in Hz. subst z. exists (y, w). split; [reflexivity|]. apply filter_In.
    split; [assumption|]. simpl. rewrite E. now apply PeanoNat.Nat.ltb_lt.
Qed.
Lemma fold_min y ys : In (fold_right Z.min y ys) (y :: ys) /\ forall z, In z (y :: ys) -> (fold_right Z.min y ys <= z)%Z.
Proof.
  induction ys as [|x ys [IH1 IH2]]; simpl; [split; [now left|intros z [<-|[]]; lia]|]. split.
  - destruct (Z.min_spec x (fold_right Z.min y ys)) as [[_ ->]|[_ ->]]; [now right; left|]. destruct IH1 as [H|H]; [left|right; right]; assumption.
  - intros z [<-|[<-|Hz]]; [specialize (IH2 y (or_introl eq_refl))|..|specialize (IH2 z (or_intror Hz))]; lia.
Qed.
Lemma fold_max y ys : In (fold_right Z.max y ys) (y :: ys) /\ forall z, In z (y :: ys) -> (z <= fold_right Z.max y ys)%Z.
Proof.
  induction ys as [|x ys [IH1 IH2]]; simpl; [split; [now left|intros z [<-|[]]; lia]|]. split.
  - destruct (Z.max_spec x (fold_right Z.max y ys)) as [[_ ->]|[_ ->]]; [|now right; left]. destruct IH1 as [H|H]; [left|right; right]; assumption.
  - intros z [<-|[<-|Hz]]; [specialize (IH2 y (or_introl eq_refl))|..|specialize (IH2 z (or_intror Hz))]; lia.
Qed.
Lemma bins_spec rets : (year_bins rets = [] /\ rets = []) \/
  exists a b, In a (map fst rets) /\ In b (map fst rets) /\ (forall y, In y (map fst rets) -> (a <= y <= b)%Z) /\
    year_bins rets = map (fun k => (a + Z.of_nat k)%Z) (seq 0 (Z.to_nat (b - a + 1))).
Proof.
  unfold year_bins. destruct (map fst rets) as [|y ys] eqn:E; [left; split; [reflexivity|now apply map_eq_nil in E]|]. right.
  destruct (fold_min y ys) as [A1 A2]. destruct (fold_max y ys) as [B1 B2].
  exists (fold_right Z.min y ys), (fold_right Z.max y ys). repeat split; auto.
Qed.

Lemma sum_sq_ge0 m l : 0 <= fold_right Rplus 0 (map (fun x => (x - m) ^ 2) l).
Proof. induction l as [|x l IH]; cbn [map fold_right]; [lra|]. pose proof (pow2_ge_0 (x - m)). lra. Qed.
Lemma sr_value l : (100 < length l)%nat -> annual_SR l (xdiv (xmul (s_mean l) (Fin 252)) (xmul (s_std l) (Fin (sqrt 252)))).
Proof.
  intros H. destruct l as [|x [|x' l]]; [simpl in H; lia|simpl in H; lia|].
  unfold s_mean, s_std, annual_SR. set (L := x :: x' :: l) in *. fold (avg L). change (sumR L / INR (length L)) with (avg L).
  assert (Ev : sumR (map (fun x0 => (x0 - avg L) * (x0 - avg L)) L) / (INR (length L) - 1) = sample_var L).
  { unfold sample_var, sumR. f_equal. f_equal. apply map_ext. intros; ring. }
  cbv zeta. rewrite Ev. simpl xmul. unfold xdiv.
  assert (S252 : 0 < sqrt 252) by (apply sqrt_lt_R0; lra). assert (SS : sqrt 252 * sqrt 252 = 252) by (apply sqrt_sqrt; lra). split.
  - intros Hv. pose proof (sqrt_lt_R0 _ Hv) as Hs. destruct (Req_EM_T (sqrt (sample_var L) * sqrt 252) 0) as [E|_].
    { exfalso. assert (0 < sqrt (sample_var L) * sqrt 252) by (now apply Rmult_lt_0_compat). lra. }
    f_equal. rewrite <- SS at 1. field. lra.
  - intros Hv. rewrite Hv, sqrt_0, Rmult_0_l. destruct (Req_EM_T 0 0); [|lra]. unfold inf_sgn. repeat split; intros Ha;
    destruct (Rlt_dec 0 (avg L * 252)); destruct (Rlt_dec (avg L * 252) 0); try reflexivity; exfalso; nra.
Qed.

Lemma sr_spec rets :
  (yearly_SR rets = [] /\ forall y, ~ full_year rets y) \/
  exists a b, full_year rets a /\ full_year rets b /\ (forall y, full_year rets y -> (a <= y <= b)%Z) /\
    map fst (yearly_SR rets) = map (fun k => (a + Z.of_nat k)%Z) (seq 0 (Z.to_nat (b - a + 1))) /\
    forall y v, In (y, v) (yearly_SR rets) -> (full_year rets y -> annual_SR (year_rets y rets) v) /\ (~ full_year rets y -> v = NaN).
Proof.
  destruct (bins_spec (keep_years rets)) as [[E1 E2]|[a [b [Ha [Hb [Hab Eb]]]]]].
  - left. split; [unfold yearly_SR; now rewrite E1|]. intros y Hy. apply kept_years in Hy. rewrite E2 in Hy. contradiction.
  - right. exists a, b. split; [now apply kept_years|]. split; [now apply kept_years|]. split; [intros y Hy; apply Hab; now apply kept_years|]. split.
    + unfold yearly_SR. rewrite map_map. simpl. rewrite map_id. exact Eb.
    + intros y v Hin. unfold yearly_SR in Hin. apply in_map_iff in Hin. destruct Hin as [y' [E _]]. injection E as <- <-.
      rewrite in_year_kept. unfold full_year. change (year_rets y' rets) with (in_year y' rets).
      destruct (Nat.ltb_spec 100 (length (in_year y' rets))) as [H|H]; split; intros Hf; [now apply sr_value|lia|lia|reflexivity].
Qed.

(** ** Consequences: the order of the days and a positive leverage do not matter. *)
Lemma year_perm y rets rets' : Permutation rets rets' -> Permutation (in_year y rets) (in_year y rets').
Proof.
  intros H. unfold in_year. apply Permutation_map. induction H; simpl.
  - constructor.
  - destruct (Z.eqb _ _); [now constructor|assumption].
  - destruct (Z.eqb (fst x) y), (Z.eqb (fst y0) y); try reflexivity. constructor.
  - eapply Permutation_trans; eassumption.
Qed.
Lemma sum_perm l l' : Permutation l l' -> sumR l = sumR l'.
Proof. unfold sumR. induction 1; simpl; lra. Qed.
Lemma s_mean_perm l l' : Permutation l l' -> s_mean l = s_mean l'.
Proof.
  intros H. pose proof (Permutation_length H) as Hl. pose proof (sum_perm _ _ H) as Hs. unfold s_mean. rewrite Hs, Hl.
  destruct l, l'; simpl in Hl; try lia; reflexivity.
Qed.
Lemma s_std_perm l l' : Permutation l l' -> s_std l = s_std l'.
Proof.
  intros H. pose proof (Permutation_length H) as Hl. pose proof (sum_perm _ _ H) as Hs. unfold s_std. rewrite Hs, Hl.
  pose proof (sum_perm _ _ (Permutation_map (fun x => (x - sumR l' / INR (length l')) * (x - sumR l' / INR (length l'))) H)) as Hq. cbv zeta. rewrite Hq.
  destruct l as [|? [|? ?]], l' as [|? [|? ?]]; simpl in Hl; try lia; reflexivity.
Qed.
Lemma keep_perm rets rets' : Permutation rets rets' -> Permutation (keep_years rets) (keep_years rets').
Proof.
  intros H. unfold keep_years. rewrite (filter_ext _ (fun p => Nat.ltb 100 (length (in_year (fst p) rets'))) ).
  2:{ intros p. now rewrite (Permutation_length (year_perm (fst p) _ _ H)). }
  generalize (fun p : Z * R => Nat.ltb 100 (length (in_year (fst p) rets'))) as f. intros f. induction H; simpl.
  - constructor.
  - destruct (f x); [now constructor|assumption].
  - destruct (f x), (f y); try reflexivity. constructor.
  - eapply Permutation_trans; eassumption.
Qed.
Lemma bins_same rets rets' : (forall y, In y (map fst rets) <-> In y (map fst rets')) -> year_bins rets = year_bins rets'.
Proof.
  intros H. destruct (bins_spec rets) as [[E1 E2]|[a [b [Ha [Hb [Hab E]]]]]]; destruct (bins_spec rets') as [[E1' E2']|[a' [b' [Ha' [Hb' [Hab' E']]]]]].
  - congruence.
  - exfalso. subst rets. now apply H in Ha'.
  - exfalso. subst rets'. now apply H in Ha.
  - pose proof (proj1 (H a) Ha) as P1. pose proof (proj1 (H b) Hb) as P2. pose proof (proj2 (H a') Ha') as P3. pose proof (proj2 (H b') Hb') as P4.
    apply Hab' in P1. apply Hab' in P2. apply Hab in P3. apply Hab in P4.
    replace a' with a in E' by lia. replace b' with b in E' by lia. congruence.
Qed.
Lemma sr_perm rets rets' : Permutation rets rets' -> yearly_SR rets = yearly_SR rets'.
Proof.
  intros H. pose proof (keep_perm _ _ H) as Hk. unfold yearly_SR. rewrite (bins_same (keep_years rets) (keep_years rets')).
  - apply map_ext. intros y. now rewrite (s_mean_perm _ _ (year_perm y _ _ Hk)), (s_std_perm _ _ (year_perm y _ _ Hk)).
  - intros y. split; apply Permutation_in; [|apply Permutation_sym]; now apply Permutation_map.
Qed.

Definition lever (c : R) (rets : list (Z * R)) : list (Z * R) := map (fun p => (fst p, c * snd p)) rets.
Lemma year_lever y c rets : in_year y (lever c rets) = map (Rmult c) (in_year y rets).
Proof. unfold in_year, lever. induction rets as [|[z v] l IH]; simpl; [reflexivity|]. destruct (Z.eqb z y); simpl; now rewrite IH. Qed.
Lemma keep_lever c rets : keep_years (lever c rets) = lever c (keep_years rets).
Proof.
  unfold keep_years. rewrite (filter_ext _ (fun p => Nat.ltb 100 (length (in_year (fst p) rets)))) by (intros p; now rewrite year_lever, map_length).
  set (f := fun y : Z => Nat.ltb 100 (length (in_year y rets))). change (filter (fun p : Z * R => f (fst p)) (lever c rets) = lever c (filter (fun p : Z * R => f (fst p)) rets)).
  clearbody f. unfold lever. induction rets as [|[z v] l IH]; simpl; [reflexivity|].
  destruct (f z); simpl; now rewrite IH.
Qed.
Lemma sum_lever c l : sumR (map (Rmult c) l) = c * sumR l.
Proof. unfold sumR. induction l as [|x l IH]; simpl; [ring|]. rewrite IH. ring. Qed.
Lemma std_lever c l : 0 < c -> s_std (map (Rmult c) l) = xmul (Fin c) (s_std l).
Proof.
  intros Hc. destruct l as [|x [|x' l]]; [reflexivity|reflexivity|]. set (L := x :: x' :: l).
  assert (E : s_std (map (Rmult c) L) = let m := sumR (map (Rmult c) L) / INR (length (map (Rmult c) L)) in Fin (sqrt (sumR (map (fun x => (x - m) * (x - m)) (map (Rmult c) L)) / (INR (length (map (Rmult c) L)) - 1)))) by reflexivity.
  rewrite E. clear E. cbv zeta. rewrite sum_lever, map_length. unfold s_std, L at 5. fold L. cbv zeta. unfold xmul. f_equal.
  set (m := sumR L / INR (length L)).
  rewrite map_map. rewrite (map_ext _ (fun y => (c * c) * ((y - m) * (y - m)))).
  2:{ intros y. unfold m, Rdiv. ring. }
  rewrite <- (map_map (fun y => (y - m) * (y - m)) (Rmult (c * c))), sum_lever.
  assert (Hq : 0 <= sumR (map (fun y => (y - m) * (y - m)) L)).
  { pose proof (sum_sq_ge0 m L) as H. unfold sumR. rewrite (map_ext _ (fun y => (y - m) ^ 2)) by (intros; ring). exact H. }
  assert (Hn : 0 < INR (length L) - 1).
  { unfold L. cbn [length]. rewrite !S_INR. pose proof (pos_INR (length l)). lra. }
  unfold Rdiv. rewrite Rmult_assoc, sqrt_mult; [|nra|]. { rewrite sqrt_square by lra. reflexivity. }
  apply Rmult_le_pos; [assumption|]. apply Rlt_le. now apply Rinv_0_lt_compat.
Qed.
Lemma sr_lever c rets : 0 < c -> yearly_SR (lever c rets) = yearly_SR rets.
Proof.
  intros Hc. unfold yearly_SR. rewrite keep_lever. rewrite (bins_same (lever c (keep_years rets)) (keep_years rets)).
  2:{ intros y. unfold lever. rewrite map_map. simpl. reflexivity. }
  apply map_ext. intros y. rewrite year_lever, std_lever by assumption. f_equal. set (L := in_year y (keep_years rets)).
  unfold s_mean. destruct L as [|x l] eqn:E; [reflexivity|]. rewrite <- E. replace (map (Rmult c) L) with (map (Rmult c) (x :: l)) by now rewrite E.
  cbn [map]. change (c * x :: map (Rmult c) l) with (map (Rmult c) (x :: l)). rewrite <- E, sum_lever, map_length. unfold s_std. rewrite E. destruct l as [|x' l']; [reflexivity|].
  rewrite <- E. cbv zeta. set (s := sqrt _). set (m := sumR L). set (n := INR (length L)). cbn [xmul]. unfold xdiv.
  assert (S252 : 0 < sqrt 252) by (apply sqrt_lt_R0; lra).
  destruct (Req_EM_T (s * sqrt 252) 0) as [H0|H0]; destruct (Req_EM_T (c * s * sqrt 252) 0) as [H1|H1].
  - unfold inf_sgn. replace (c * m / n * 252) with (c * (m / n * 252)) by (unfold Rdiv; ring). set (u := m / n * 252).
    destruct (Rlt_dec 0 u), (Rlt_dec 0 (c * u)), (Rlt_dec u 0), (Rlt_dec (c * u) 0); try reflexivity; exfalso; nra.
  - exfalso. apply H1. rewrite Rmult_assoc, H0. ring.
  - exfalso. apply H0. rewrite Rmult_assoc in H1. apply Rmult_integral in H1. destruct H1; [lra|assumption].
  - f_equal. assert (s <> 0) by (intros ->; apply H0; ring). unfold Rdiv. rewrite !Rinv_mult. 
    replace (c * m * / n * 252 * (/ c * / s * / sqrt 252)) with ((c * / c) * (m * / n * 252 * (/ s * / sqrt 252))) by ring. rewrite Rinv_r by lra. ring.
Qed.
