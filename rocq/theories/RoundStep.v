(** * One step of the EWMA recursion in binary64. *)
From Coq Require Import ZArith Reals Lra Psatz Lia.
From Flocq Require Import Core Relative BinarySingleNaN.
From Verif Require Import Num Ieee SpecRound.
Local Open Scope R_scope.

Definition rd (x : R) : R := round radix2 (SpecFloat.fexp 53 1024) (round_mode mode_NE) x.
Notation pw e := (bpow radix2 e).
Definition uu : R := pw (-53).
Definition hh : R := pw (-1075).

Lemma uu_pos : 0 < uu. Proof. apply bpow_gt_0. Qed.
Lemma hh_pos : 0 < hh. Proof. apply bpow_gt_0. Qed.
Lemma rd_err x : Rabs (rd x - x) <= uu * Rabs x + hh.
Proof.
  destruct (error_N_FLT radix2 (-1074) 53 eq_refl (fun x => negb (Z.even x)) x) as (e & t & He & Ht & _ & E).
  change (rd x = x * (1 + e) + t) in E. rewrite E. replace (x * (1 + e) + t - x) with (e * x + t) by ring.
  eapply Rle_trans; [apply Rabs_triang|]. rewrite Rabs_mult. apply Rplus_le_compat.
  - apply Rmult_le_compat_r; [apply Rabs_pos|]. eapply Rle_trans; [exact He|]. apply Req_le. unfold uu. change (/ 2) with (/ IZR (radix_val radix2)).
    change (/ IZR (radix_val radix2)) with (/ IZR (Zpower_pos radix2 1)). change (/ IZR (Zpower_pos radix2 1)) with (pw (-1)). rewrite <- bpow_plus. reflexivity.
  - eapply Rle_trans; [exact Ht|]. apply Req_le. unfold hh.
    change (/ 2) with (/ IZR (Zpower_pos radix2 1)). change (/ IZR (Zpower_pos radix2 1)) with (pw (-1)). rewrite <- bpow_plus. reflexivity.
Qed.
Lemma rd_le x y : x <= y -> rd x <= rd y.
Proof. apply round_le; [apply fexp_correct; reflexivity|apply valid_rnd_N]. Qed.
Lemma rd_val x : rd (B2R (x : b64)) = B2R x.
Proof. apply round_generic; [apply valid_rnd_N|apply generic_format_B2R]. Qed.
Lemma rd_0 : rd 0 = 0. Proof. apply round_0. apply valid_rnd_N. Qed.
Lemma rd_small x : Rabs x <= pw 1020 -> Rlt_bool (Rabs (rd x)) (pw 1024) = true.
Proof.
  intros H. apply Rlt_bool_true. apply Rle_lt_trans with (pw 1020).
  - apply abs_round_le_generic; [apply fexp_correct; reflexivity|apply valid_rnd_N| |exact H].
    apply generic_format_bpow. cbv. discriminate.
  - apply bpow_lt. reflexivity.
Qed.
Lemma fadd_val (x y : b64) : isnum x -> isnum y -> Rabs (fval x + fval y) <= pw 1020 -> isnum (fadd x y) /\ fval (fadd x y) = rd (fval x + fval y).
Proof.
  intros Hx Hy H. generalize (Bplus_correct 53 1024 _ _ mode_NE x y Hx Hy). fold (rd (B2R x + B2R y)). rewrite rd_small by exact H. intros (A & B & _). split; assumption.
Qed.
Lemma fsub_val (x y : b64) : isnum x -> isnum y -> Rabs (fval x - fval y) <= pw 1020 -> isnum (fsub x y) /\ fval (fsub x y) = rd (fval x - fval y).
Proof.
  intros Hx Hy H. generalize (Bminus_correct 53 1024 _ _ mode_NE x y Hx Hy). fold (rd (B2R x - B2R y)). rewrite rd_small by exact H. intros (A & B & _). split; assumption.
Qed.
Lemma fmul_val (x y : b64) : isnum x -> isnum y -> Rabs (fval x * fval y) <= pw 1020 -> isnum (fmul x y) /\ fval (fmul x y) = rd (fval x * fval y).
Proof.
  intros Hx Hy H. generalize (Bmult_correct 53 1024 _ _ mode_NE x y). fold (rd (B2R x * B2R y)). rewrite rd_small by exact H. intros (A & B & _). split; [|exact A].
  unfold isnum, fmul. rewrite B. unfold isnum in *. rewrite Hx, Hy. reflexivity.
Qed.
Lemma fdiv_val (x y : b64) : isnum x -> fval y <> 0 -> Rabs (fval x / fval y) <= pw 1020 -> isnum (fdiv x y) /\ fval (fdiv x y) = rd (fval x / fval y).
Proof.
  intros Hx Hy H. generalize (Bdiv_correct 53 1024 _ _ mode_NE x y Hy). fold (rd (B2R x / B2R y)). rewrite rd_small by exact H. intros (A & B & _). split; [|exact A].
  unfold isnum, fdiv. rewrite B. exact Hx.
Qed.
Lemma f1_val : fval f1 = 1. Proof. apply Bone_correct. Qed.
Lemma f1_num : isnum f1. Proof. apply is_finite_Bone. Qed.
