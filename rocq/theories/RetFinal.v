(** * Assembled statements about return_combination.py. *)
From Coq Require Import Reals Lra ZArith String List Lia.
Set Warnings "-notation-overridden,-ambiguous-paths".
From mathcomp Require Import all_ssreflect all_algebra.
From Verif Require Import RStruct MatR Num Py ListFacts Spec Combination CombPerm CombFacts Trader TraderOpt TraderBt TraderMain BacktestProps RetComb SpecRet RetEwm RetRidge RetFit RetMain RetInv RetPred RetLasso RetTune.
Set Implicit Arguments.
Unset Strict Implicit.
Unset Printing Implicit Defensive.
Import GRing.Theory.
Local Open Scope ring_scope.
Delimit Scope R_scope with re.
Delimit Scope Z_scope with z.

Theorem fit_main K idx cols times (preds : seq (seq Z * seq 'cV[R]_K)) m alpha out :
  good_data idx cols times preds -> (0 < m)%N -> (0 <= alpha)%re -> fit idx cols preds m alpha = Ok out ->
  out.1.1 = drop m times /\ map fst out.1.2 = map fst cols /\ size out.2 = size cols /\
  forall i t, (i < size cols)%N -> (m <= t < size times)%N ->
    let w := nth 0 (nth [::] out.2 i) (t - m) in
    unique_minimiser (ridge_loss m alpha (fun s => return_at idx (col_at cols i) (nth Z0 times s)) (pred_at preds i) t) w /\
    nth 0 (col_at out.1.2 i) (t - m) = forecast (pred_at preds i t) w /\
    size (nth [::] out.2 i) = (size times - m)%N /\ size (col_at out.1.2 i) = (size times - m)%N.
Proof.
  move=> Hg Hm Ha Hf. have [E1 [E2 [E3 H]]] := fit_cells Hg Hm Hf. do 3 split=> //. move=> i t Hi Ht. have [_ [H1 [H2 H3]]] := H i t Hi Ht.
  split; first exact: (fit_min Hg Hm Ha Hf). by [].
Qed.
Theorem scales_main K (xs : seq 'cV[R]_K) (k : 'I_K) : size (get_scales xs k) = size xs /\
  nth None (get_scales xs k) 0 = None /\
  forall t, (0 < t < size xs)%N -> nth None (get_scales xs k) t = Some (mean_square (fun s => nth 0 xs s) t k).
Proof.
  have Hs : size (get_scales xs k) = size xs by rewrite /get_scales shift1_size ewm_size size_map. split=> //. split.
  - case: xs Hs => [//|x xs] _. by rewrite /get_scales shift1_nth // ewm_size size_map.
  - move=> t /andP [H0 Ht]. have := scaleP H0 Ht. rewrite /scale_at. case: ifP => // /forallP /(_ k) Hk [] H.
    have := congr1 (fun M : 'cV[R]_K => M k 0) H. rewrite !mxE => <-. by case: (nth _ _ _) Hk.
Qed.
Theorem not_half_life : ((250 / 251) ^ 174 < / 2 < (250 / 251) ^ 173)%re /\ ((250 / 251) ^ 250 < 2 / 5)%re.
Proof.
  have E n : ((250 / 251) ^ n = IZR (250 ^ Z.of_nat n) / IZR (251 ^ Z.of_nat n))%re.
  { rewrite -!pow_IZR /Rdiv Rpow_mult_distr. congr (_ * _)%re. by rewrite pow_inv. }
  have P n : (0 < IZR (251 ^ Z.of_nat n))%re by apply: IZR_lt; apply: Z.pow_pos_nonneg; lia.
  rewrite !E. split; first split.
  - apply: (Rmult_lt_reg_r (IZR (251 ^ Z.of_nat 174))); first exact: P. rewrite /Rdiv Rmult_assoc Rinv_l ?Rmult_1_r; last by apply: Rgt_not_eq; exact: P.
    apply: (Rmult_lt_reg_l 2); first lra. rewrite -Rmult_assoc Rinv_r ?Rmult_1_l; last lra. rewrite -mult_IZR. apply: IZR_lt. by vm_compute.
  - apply: (Rmult_lt_reg_r (IZR (251 ^ Z.of_nat 173))); first exact: P. rewrite /Rdiv Rmult_assoc Rinv_l ?Rmult_1_r; last by apply: Rgt_not_eq; exact: P.
    apply: (Rmult_lt_reg_l 2); first lra. rewrite -Rmult_assoc Rinv_r ?Rmult_1_l; last lra. rewrite -mult_IZR. apply: IZR_lt. by vm_compute.
  - apply: (Rmult_lt_reg_r (IZR (251 ^ Z.of_nat 250))); first exact: P. rewrite /Rdiv Rmult_assoc Rinv_l ?Rmult_1_r; last by apply: Rgt_not_eq; exact: P.
    apply: (Rmult_lt_reg_l 5); first lra. rewrite -Rmult_assoc. have -> : (5 * (2 * / 5) = 2)%re by field. rewrite -!mult_IZR. apply: IZR_lt. by vm_compute.
Qed.
Theorem ewma_entries idx xs hs : List.NoDup idx -> size xs = size idx -> (forall h, List.In h hs -> (0 < h)%re) -> List.NoDup hs ->
  exists cols, ewma_predictors idx xs hs = Ok (behead idx, cols) /\ map fst cols = hs /\
  forall j t, (j < size hs)%N -> (0 < t < size idx)%N ->
    size (nth (0, [::]) cols j).2 = (size idx).-1 /\
    nth None (nth (0, [::]) cols j).2 t.-1 = past_mean (half_decay (nth 0 hs j)) (fun s => nth None xs s) t.
Proof.
  move=> Hn Hs Hh Hnh. eexists. split; first exact: ewma_value. split; first by rewrite -map_comp; exact: map_id.
  move=> j t Hj /andP [H0 Ht]. rewrite (nth_map 0) //= size_map size_iota. split=> //. rewrite (nth_map 0%N) ?size_iota; last lia. rewrite nth_iota; last lia. congr past_mean. lia.
Qed.
Theorem ewma_facts a (x : nat -> option R) t : (0 < a)%re ->
  (forall x', (forall s, (s < t)%N -> x s = x' s) -> past_mean a x t = past_mean a x' t) /\
  (forall lo hi v, (forall s u, (s < t)%N -> x s = Some u -> (lo <= u <= hi)%re) -> past_mean a x t = Some v -> (lo <= v <= hi)%re).
Proof. move=> Ha. split; [move=> x'; exact: past_mean_ext|move=> lo hi v; exact: past_mean_range]. Qed.
Theorem daily_entries idx xs lags : List.NoDup idx -> size xs = size idx -> List.NoDup lags ->
  exists cols, daily_predictors idx xs lags = Ok (idx, cols) /\ map fst cols = lags /\
  forall j t, (j < size lags)%N -> (t < size idx)%N ->
    let s := (Z.of_nat t - nth Z0 lags j)%z in
    nth None (nth (Z0, [::]) cols j).2 t = if Z.leb 0 s then nth None xs (Z.to_nat s) else None.
Proof.
  move=> Hn Hs Hl. eexists. split; first exact: daily_value. split; first by rewrite -map_comp; exact: map_id.
  move=> j t Hj Ht. by rewrite (nth_map Z0) //= (nth_map 0%N) ?size_iota // nth_iota.
Qed.
