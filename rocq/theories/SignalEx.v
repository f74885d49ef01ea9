(** * Concrete cases for the signal properties. *)
From Coq Require Import Reals Lra ZArith List Lia.
Set Warnings "-notation-overridden,-ambiguous-paths".
From mathcomp Require Import all_ssreflect all_algebra.
From Verif Require Import RStruct MatR Num Py RetComb SpecRet Signals SpecSignals SignalQuant SignalTune SignalSign SignalAuto.
Set Implicit Arguments.
Unset Strict Implicit.
Unset Printing Implicit Defensive.
Import GRing.Theory.
Local Open Scope ring_scope.
Delimit Scope R_scope with re.

Lemma moving_outcome h x y : ((0 < h)%re -> exists out, moving_autocorrelation h x y = Ok out) /\
  ((h <= 0)%re -> moving_autocorrelation h x y = Raise ValueError).
Proof. split; [exact: moving_total|exact: moving_error]. Qed.

Ltac dec := repeat (case: RltbP => ?; try (exfalso; lra)); repeat (case: RlebP => ?; try (exfalso; lra)).
Ltac kth := split; [by rewrite !inE ?eqxx ?orbT|split; rewrite /=; by dec].
Lemma tune_example : exists out, tune_returns (2 / 5) (3 / 5) [:: [:: Some 5%re; Some 1%re; None; Some 2%re; Some 3%re; Some 4%re]] = Ok out /\
  cell None out 0 0 = Some (17 / 5)%re /\ cell None out 0 1 = Some (13 / 5)%re /\ cell None out 0 2 = None /\ cell None out 0 4 = Some 3%re.
Proof.
  set rows := [:: _]. have [out H] := @tune_total (2 / 5) (3 / 5) rows ltac:(lra) ltac:(lra). exists out. split => //.
  have [_ /(_ 0%N isT)] := tune_values H. rewrite /= => -[[]|[a [b [Ha [Hb E]]]]]; first by [].
  have Qa : is_quantile (values (nth [::] rows 0)) (2 / 5) (13 / 5).
  { exists 1%N, (3 / 5)%re, 2%re, 3%re. split; [rewrite /=; lra|]. split; [lra|]. split; [kth|]. right. split; [kth|lra]. }
  have Qb : is_quantile (values (nth [::] rows 0)) (3 / 5) (17 / 5).
  { exists 2%N, (2 / 5)%re, 3%re, 4%re. split; [rewrite /=; lra|]. split; [lra|]. split; [kth|]. right. split; [kth|lra]. }
  rewrite (is_quantile_unique Ha Qa) (is_quantile_unique Hb Qb) in E.
  rewrite !E //= /cell /=. rewrite Rmin_left ?Rmax_right; try lra. rewrite /into. by repeat split; congr Some; dec.
Qed.
Lemma twice_example : is_quantile [:: 13 / 5; 13 / 5; 3; 17 / 5; 17 / 5]%re (2 / 5) (71 / 25).
Proof.
  exists 1%N, (3 / 5)%re, (13 / 5)%re, 3%re. split; [rewrite /=; lra|]. split; [lra|]. split; [kth|]. right. split; [kth|lra].
Qed.
Lemma sign_example : let rows := [:: nseq 12 (Some (1 / 2)%re) ++ nseq 12 (Some (- (1 / 2))%re)] in
  exists out, get_sign_prediction merge_argsort rows = Ok out /\
  count (pred1 (Some 1%re)) (nth [::] out 0) = 10%N /\ count (pred1 (Some (- 1)%re)) (nth [::] out 0) = 10%N.
Proof.
  move=> rows. have [[[r Hr Hs] _]|[_ [out [H _]]]] := sign_outcome merge_argsort rows.
  { exfalso. move: Hr. rewrite inE => /eqP E. by rewrite E size_cat !size_nseq in Hs. }
  exists out. split => //.
  have Hsm : small (nth [::] rows 0).
  { move=> v. rewrite -[nth _ _ _]/(nseq 12 (Some (1 / 2)%re) ++ nseq 12 (Some (- (1 / 2))%re)) mem_cat !mem_nseq /= => /orP [] /eqP [->]; lra. }
  have [-> ->] := sign_counts merge_argsort_sorts H (isT : (0 < size rows)%N) isT Hsm.
  have -> : n_nan (nth [::] rows 0) = 0%N by [].
  have -> : n_pos (nth [::] rows 0) = 12%N. { rewrite /n_pos -[nth _ _ _]/(nseq 12 (Some (1 / 2)%re) ++ nseq 12 (Some (- (1 / 2))%re)) count_cat !count_nseq. by dec. }
  have -> : n_neg (nth [::] rows 0) = 12%N. { rewrite /n_neg -[nth _ _ _]/(nseq 12 (Some (1 / 2)%re) ++ nseq 12 (Some (- (1 / 2))%re)) count_cat !count_nseq. by dec. }
  by [].
Qed.
Lemma sign_percent_example : let rows := [:: nseq 12 (Some 50%re) ++ nseq 12 (Some 20%re)] in
  get_sign_prediction merge_argsort rows = Ok [:: nseq 24 (Some 0%re)].
Proof.
  move=> rows. have [[[r Hr Hs] _]|[_ [out [H Hsz]]]] := sign_outcome merge_argsort rows.
  { exfalso. move: Hr. rewrite inE => /eqP E. by rewrite E size_cat !size_nseq in Hs. }
  rewrite H. congr Ok. have := sign_large merge_argsort_sorts H (isT : (0 < size rows)%N).
  case: out Hsz {H} => [|o [|? ?]] //= _ -> //. move=> x. rewrite -[_ :: _]/(nseq 12 (Some 50%re) ++ nseq 12 (Some 20%re)) mem_cat !mem_nseq /= => /orP [] /eqP ->; eexists; [reflexivity|lra|reflexivity|lra].
Qed.
Lemma auto_example : exists out rho, moving_autocorrelation 1 [:: Some 1%re; Some 2%re] [:: Some 3%re; Some 6%re] = Ok out /\ nth None out 1 = Some rho /\ rho = 1%re.
Proof.
  have [out H] := moving_total [:: Some 1%re; Some 2%re] [:: Some 3%re; Some 6%re] (Rlt_0_1 : (0 < 1)%re).
  have := moving_range H erefl (isT : (1 < 2)%N). rewrite /=. set a := half_decay 1. have Ha : (0 < a)%re := RetPred.half_pos 1.
  rewrite /seen_weight /seen_sum !big_ord_recl !big_ord0 /= /bump /= ?expr0 ?expr1 ?add0r ?addr0 ?mul1r.
  case E : (nth None out 1) => [rho|] H0.
  - exists out, rho. split => //. split => //. case: H0 => _ [_ [_ [H0 _]]]. move: H0. toR.
    set p := ((a * (1 * 1) + 2 * 2) / (a + R1))%re. have Hp : (0 < p)%re by rewrite /p; apply: Rdiv_lt_0_compat; toR; nra.
    have -> : ((a * (3 * 3) + 6 * 6) / (a + R1) = 3 * 3 * p)%re by rewrite /p; field; lra.
    have -> : ((a * (1 * 3) + 2 * 6) / (a + R1) = 3 * p)%re by rewrite /p; field; lra.
    rewrite sqrt_mult; [|lra|lra]. rewrite sqrt_square; last lra. move=> H1.
    have H2 : (rho * (3 * (sqrt p * sqrt p)) = 3 * p)%re by rewrite -H1; ring. rewrite sqrt_sqrt in H2; last lra. eqR. nra.
  - exfalso. case: H0 => [H0|[H0|H0]]; [by have := H0 1%N isT|have := H0 0%N _ isT erefl|have := H0 0%N _ isT erefl]; toR; lra.
Qed.
