(** * First-order condition of the risk-parity problem, one coordinate at a time. *)
From Coq Require Import Reals Lra.
Set Warnings "-ambiguous-paths".
From Coquelicot Require Import Coquelicot.
Local Open Scope R_scope.

Lemma parity_foc q b a z nn C : 0 < q -> 0 < z -> 0 < nn ->
  (forall h, - z < h -> / 2 * sqrt q - (C + ln z) / nn <= / 2 * sqrt (q + 2 * b * h + a * h * h) - (C + ln (z + h)) / nn) ->
  z * b = 2 * sqrt q / nn.
Proof.
  intros Hq Hz Hn Hmin.
  pose (f := fun h => / 2 * sqrt (q + 2 * b * h + a * h * h) - (C + ln (z + h)) / nn).
  assert (Hs : 0 < sqrt q) by (apply sqrt_lt_R0; auto).
  assert (Hd : is_derive f 0 (/ 2 * (b / sqrt q) - / z / nn)).
  { unfold f. auto_derive; [repeat split; try lra; rewrite ?Rmult_0_r, ?Rplus_0_r; lra|].
    rewrite ?Rmult_0_r, ?Rplus_0_r. field. lra. }
  assert (pr : derivable_pt_lim f 0 (/ 2 * (b / sqrt q) - / z / nn)) by (apply is_derive_Reals; auto).
  assert (E := deriv_minimum f (- z) z 0 (exist _ _ pr)).
  assert (H0 : / 2 * (b / sqrt q) - / z / nn = 0).
  { apply E; try lra. intros h H1 H2. unfold f. replace (q + 2 * b * 0 + a * 0 * 0) with q by ring. rewrite Rplus_0_r. apply Hmin; auto. }
  replace b with (2 * sqrt q * (/ 2 * (b / sqrt q))) by (field; lra).
  replace (/ 2 * (b / sqrt q)) with (/ z / nn) by lra. field. lra.
Qed.

Lemma ln_le_lin u : 0 < u -> ln u <= u - 1.
Proof.
  intros Hu. destruct (Req_dec u 1) as [->|H]; [rewrite ln_1; lra|]. left.
  assert (G := exp_ineq1 (u - 1) (Rminus_eq_contra _ _ H)).
  assert (E := ln_exp (u - 1)). assert (ln u < ln (exp (u - 1))) by (apply ln_increasing; lra). lra.
Qed.
