(** * iterated_ewma, end to end, in binary64. *)
From Coq Require Import String ZArith Reals Lra Psatz Lia List Bool Arith.
From Flocq Require Import Core BinarySingleNaN.
From Verif Require Import Num Py ListFacts Ewma EwmaTot EwmaPrefix EwmaEquiv EwmaTab Spec SpecEwma EwmaReal EwmaClosed EwmaFin EwmaProps EwmaProps2
  Ieee SpecRound SpecRound2 RoundStep RoundReal RoundRun RoundLip RoundDecay RoundFrame RoundSign RoundVol RoundCov RoundDiag RoundScale.
Import ListNotations.
Local Open Scope R_scope.

Lemma ewavg_cs b (u v : nat -> R) k : 0 < b < 1 -> 0 < ewavg b (fun s => u s * u s) k -> 0 < ewavg b (fun s => v s * v s) k ->
  Rabs (ewavg b (fun s => u s * v s) k) <= sqrt (ewavg b (fun s => u s * u s) k) * sqrt (ewavg b (fun s => v s * v s) k).
Proof.
  intros Hb. set (A := ewavg b (fun s => u s * u s) k). set (B := ewavg b (fun s => v s * v s) k). set (C := ewavg b (fun s => u s * v s) k). intros HA HB.
  assert (SA : sqrt A * sqrt A = A) by (apply sqrt_sqrt; lra). assert (SB : sqrt B * sqrt B = B) by (apply sqrt_sqrt; lra).
  assert (PA : 0 < sqrt A) by (apply sqrt_lt_R0; lra). assert (PB : 0 < sqrt B) by (apply sqrt_lt_R0; lra).
  assert (EC : ewavg b (fun s => v s * u s) k = C) by (unfold C, ewavg, Rdiv; apply Rmult_eq_compat_r; apply rsum_ext; intros; ring).
  assert (Q := fun w => quad_ewavg b 2 (fun i s => match i with O => u s | _ => v s end) w k Hb).
  assert (Q1 := Q (fun i => match i with O => sqrt B | _ => sqrt A end)). assert (Q2 := Q (fun i => match i with O => sqrt B | _ => - sqrt A end)).
  cbn [rsum] in Q1, Q2. fold A B C in Q1, Q2. rewrite EC in Q1, Q2.
  set (a := sqrt A) in *. set (c := sqrt B) in *. rewrite <- SA, <- SB in Q1, Q2.
  assert (K : 0 < a * c) by nra. apply Rabs_le. split.
  - apply Rmult_le_reg_l with (2 * (a * c)); [lra|]. nra.
  - apply Rmult_le_reg_l with (2 * (a * c)); [lra|]. nra.
Qed.

Section Acc.
  Context (L : libm) (hv hc : b64) (M w g : R).
  Hypothesis HL : accurate L.
  Hypothesis HHv : / 2 <= fval hv <= pw 20.
  Hypothesis HHc : / 2 <= fval hc <= pw 20.
  Hypothesis HM : pw (-440) <= M <= pw 490.
  Hypothesis W0 : 0 < w.
  Hypothesis G0 : 0 < g.
  Context (mpv mpc p : nat).
  Notation B := (rounding_bound (fval hv) (fval hc) M w g).
  Hypothesis HB : B <= / 2.
  Let dv := decay (fval hv).
  Let dc := decay (fval hc).
  Let vol (x : nat -> b64) (k : nat) : b64 := fsqrt (nst (N := IEEE L) (fbeta L hv) mpv None (fun s => fmul (x s) (x s)) k).
  Let adj (x : nat -> b64) (i : nat) : b64 := fdiv (x (p + i)%nat) (vol x (p + i)).
  Let mom (x y : nat -> b64) (i : nat) : b64 := nst (N := IEEE L) (fbeta L hc) mpc None (fun s => fmul (adj x s) (adj y s)) i.
  Let sg (x : nat -> b64) (k : nat) : R := sqrt (ewavg dv (fun s => fval (x s) ^ 2) k).
  Let ea (x : nat -> b64) (i : nat) : R := fval (x (p + i)%nat) / sg x (p + i).
  Let em (x y : nat -> b64) (i : nat) : R := ewavg dc (fun s => ea x s * ea y s) i.
  Let rho := M / w.
  Let dl := pw (-46) * rho ^ 2 / (1 - dv).
  Let S := / (1 - dv) + / (1 - dc).
  Let th := pw (-44) * rho ^ 4 * S / g.
  Definition okcol (x : nat -> b64) (i : nat) : Prop :=
    (forall s, (s <= p + i)%nat -> isnum (x s) /\ Rabs (fval (x s)) <= M) /\ forall s, (s <= i)%nat -> w <= sg x (p + s).

  Lemma B_th : B = 4 * th.
  Proof. unfold rounding_bound, th. fold dv dc rho S. rewrite (pw_split 2 (-44) (-42)) by lia. change (pw 2) with 4. unfold Rdiv. ring. Qed.
  Lemma dvb : 0 < dv < 1 /\ 0 < dc < 1.
  Proof. split; apply decay_bounds; lra. Qed.
  Lemma sg_le x i : okcol x i -> forall s, (s <= i)%nat -> sg x (p + s) <= M.
  Proof.
    intros [H1 _] s Hs. assert (P440 : 0 < pw (-440)) by apply bpow_gt_0. unfold sg. rewrite <- (sqrt_square M) by lra. apply sqrt_le_1_alt.
    eapply Rle_trans; [apply Rle_abs|]. apply ewavg_abs; [apply dvb|]. intros q Hq. rewrite <- RPow_abs. replace (M * M) with (M ^ 2) by ring.
    apply pow_incr. split; [apply Rabs_pos|]. apply H1. lia.
  Qed.
  Lemma invs : 1 <= / (1 - dv) /\ 1 <= / (1 - dc).
  Proof. destruct dvb as [V C]. split; (rewrite <- Rinv_1 at 1; apply Rinv_le_contravar; lra). Qed.

  Hypothesis Hrho : 1 <= rho.
  Hypothesis Hg : g <= rho ^ 2.
  Lemma consts : 4 * dl <= th /\ 128 * uu <= dl /\ 1024 * uu <= th /\ th <= / 8 /\ rho <= pw 21 /\ pw (-40) <= g.
  Proof.
    destruct invs as [IV IC]. destruct dvb as [V C]. pose proof uu_pos as U0. assert (P44 : 0 < pw (-44)) by apply bpow_gt_0.
    assert (T8 : th <= / 8) by (assert (E := B_th); lra).
    assert (R2 : 1 <= rho ^ 2) by nra. set (r2 := rho ^ 2) in *. assert (E4 : rho ^ 4 = r2 * r2) by (unfold r2; ring).
    assert (S2 : 2 <= S) by (unfold S; lra).
    assert (TG : th * g = pw (-44) * (r2 * r2) * S) by (unfold th; rewrite E4; field; lra).
    assert (TB : pw (-44) * r2 * S <= th).
    { apply Rmult_le_reg_r with g; [lra|]. rewrite TG. replace (pw (-44) * (r2 * r2) * S) with (pw (-44) * r2 * S * r2) by ring.
      apply Rmult_le_compat_l; [|exact Hg]. apply Rmult_le_pos; [apply Rmult_le_pos; lra|lra]. }
    assert (A44 : pw (-44) <= pw (-44) * r2) by (rewrite <- (Rmult_1_r (pw (-44))) at 1; apply Rmult_le_compat_l; lra).
    assert (P46 : pw (-44) = 4 * pw (-46)) by (rewrite (pw_split 2 (-46) (-44)) by lia; reflexivity).
    assert (U46 : pw (-46) = 128 * uu) by (unfold uu; rewrite (pw_split 7 (-53) (-46)) by lia; reflexivity).
    assert (K : pw (-44) * r2 * 2 <= pw (-44) * r2 * S) by (apply Rmult_le_compat_l; lra).
    split; [|split; [|split; [|split; [exact T8|split]]]].
    - apply Rle_trans with (pw (-44) * r2 * S); [|exact TB]. unfold dl, S. rewrite P46. fold r2. unfold Rdiv.
      replace (4 * (pw (-46) * r2 * / (1 - dv))) with (4 * pw (-46) * r2 * / (1 - dv)) by ring. apply Rmult_le_compat_l; [|lra]. apply Rmult_le_pos; lra.
    - unfold dl. rewrite <- U46. fold r2. rewrite <- (Rmult_1_r (pw (-46))) at 1. unfold Rdiv. rewrite Rmult_assoc. apply Rmult_le_compat_l; [lra|].
      replace 1 with (1 * 1) at 1 by ring. apply Rmult_le_compat; lra.
    - lra.
    - assert (X : pw (-44) * r2 <= / 16) by lra. destruct (Rle_dec rho (pw 21)) as [|n]; [assumption|]. exfalso. apply Rnot_le_lt in n.
      assert (0 < pw 21) by apply bpow_gt_0. assert (Y : pw 21 * pw 21 < r2) by (unfold r2; nra). rewrite <- bpow_plus in Y. simpl (21 + 21)%Z in Y.
      assert (Z : pw (-44) * pw 42 < pw (-44) * r2) by (apply Rmult_lt_compat_l; lra). rewrite <- bpow_plus in Z. simpl (-44 + 42)%Z in Z. change (pw (-2)) with (/ 4) in Z. lra.
    - assert (X : th * g <= / 8 * g) by (apply Rmult_le_compat_r; lra). rewrite TG in X.
      assert (Y : pw (-44) * 2 <= pw (-44) * (r2 * r2) * S). { rewrite Rmult_assoc. apply Rmult_le_compat_l; [lra|]. assert (1 <= r2 * r2) by nra. nra. }
      rewrite (pw_split 4 (-44) (-40)) by lia. change (pw 4) with 16. lra.
  Qed.

  Lemma fcol x i : okcol x i -> forall s, (s <= i)%nat ->
    isnum (vol x (p + s)) /\ Rabs (fval (vol x (p + s)) - sg x (p + s)) <= dl * sg x (p + s) /\
    isnum (adj x s) /\ Rabs (fval (adj x s) - ea x s) <= 3 / 2 * rho * dl /\ Rabs (ea x s) <= rho.
  Proof.
    intros Hx s Hs. destruct consts as (C1 & C2 & C3 & C4 & C5 & C6). destruct Hx as [H1 H2].
    destruct (fvola L hv M HL HHv HM mpv x (p + s)) as (N1 & V1 & E1); [intros q Hq; apply H1; lia|]. fold dv in E1. fold (vol x (p + s)) in N1, V1, E1.
    assert (WM : w <= M). { apply Rmult_le_reg_r with (/ w); [apply Rinv_0_lt_compat; lra|]. rewrite Rinv_r by lra. exact Hrho. }
    destruct (H1 (p + s)%nat ltac:(lia)) as [Nx Bx].
    destruct (fadj (x (p + s)%nat) (vol x (p + s)) (sg x (p + s)) w M dl Nx Bx N1 V1 W0 (H2 s Hs) WM) as (A1 & A2 & A3 & A4).
    - assert (E : sg x (p + s) ^ 2 = ewavg dv (fun q => fval (x q) ^ 2) (p + s)).
      { unfold sg. replace (sqrt (ewavg dv (fun q => fval (x q) ^ 2) (p + s)) ^ 2) with (sqrt (ewavg dv (fun q => fval (x q) ^ 2) (p + s)) * sqrt (ewavg dv (fun q => fval (x q) ^ 2) (p + s))) by ring.
        apply sqrt_sqrt. apply ewavg_nonneg; [apply dvb|]. intros q Hq. nra. }
      rewrite E. eapply Rle_trans; [exact E1|]. apply Req_le. unfold dl, rho. destruct dvb. field. lra.
    - exact C2.
    - lra.
    - eapply Rle_trans; [exact C5|]. apply bpow_le. lia.
    - split; [exact N1|]. split; [exact A3|]. split; [exact A1|]. split; [exact A2|exact A4].
  Qed.
  Lemma fmom x y i : okcol x i -> okcol y i -> isnum (mom x y i) /\ Rabs (fval (mom x y i) - em x y i) <= th * g.
  Proof.
    intros Hx Hy. destruct consts as (C1 & C2 & C3 & C4 & C5 & C6). pose proof uu_pos as U0. destruct dvb as [DV DC]. destruct invs as [IV IC].
    assert (D0 : 0 < dl) by lra. assert (D1 : dl <= / 32) by lra.
    assert (Sz : forall z, okcol z i -> forall s, (s <= i)%nat -> Rabs (fval (adj z s)) <= 67 / 64 * rho).
    { intros z Hz s Hs. destruct (fcol z i Hz s Hs) as (_ & _ & _ & E & Q). replace (fval (adj z s)) with ((fval (adj z s) - ea z s) + ea z s) by ring.
      eapply Rle_trans; [apply (abs_plus _ _ _ _ E Q)|]. nra. }
    assert (F : forall z, okcol z i -> forall s, (s <= i)%nat -> isnum (adj z s) /\ Rabs (fval (adj z s)) <= 2 * rho).
    { intros z Hz s Hs. split; [apply (fcol z i Hz s Hs)|]. eapply Rle_trans; [apply Sz; assumption|]. lra. }
    assert (M2 : pw (-440) <= 2 * rho <= pw 490).
    { split.
      - apply Rle_trans with (pw 0); [apply bpow_le; lia|]. change (pw 0) with 1. lra.
      - apply Rle_trans with (pw 1 * pw 21); [change (pw 1) with 2; lra|]. rewrite <- bpow_plus. apply bpow_le. lia. }
    destruct (fcov L hc (2 * rho) HL HHc M2 mpc (adj x) (adj y) i (F x Hx) (F y Hy)) as [N1 E1]. fold dc in E1. fold (mom x y i) in N1, E1.
    split; [exact N1|].
    assert (E2 : Rabs (ewavg dc (fun s => fval (adj x s) * fval (adj y s)) i - em x y i) <= 4 * rho ^ 2 * dl).
    { unfold em. apply ewavg_dist; [exact DC|]. intros s Hs. destruct (fcol x i Hx s Hs) as (_ & _ & _ & Ex & Qx). destruct (fcol y i Hy s Hs) as (_ & _ & _ & Ey & Qy).
      replace (fval (adj x s) * fval (adj y s) - ea x s * ea y s) with ((fval (adj x s) - ea x s) * fval (adj y s) + ea x s * (fval (adj y s) - ea y s)) by ring.
      eapply Rle_trans; [apply (abs_plus _ _ _ _ (abs_mul_le _ _ _ _ Ex (Sz y Hy s Hs)) (abs_mul_le _ _ _ _ Qx Ey))|].
      assert (0 <= rho ^ 2 * dl) by (apply Rmult_le_pos; [nra|lra]). replace (3 / 2 * rho * dl * (67 / 64 * rho) + rho * (3 / 2 * rho * dl)) with ((3 / 2 * (67 / 64) + 3 / 2) * (rho ^ 2 * dl)) by ring. lra. }
    replace (fval (mom x y i) - em x y i) with ((fval (mom x y i) - ewavg dc (fun s => fval (adj x s) * fval (adj y s)) i) + (ewavg dc (fun s => fval (adj x s) * fval (adj y s)) i - em x y i)) by ring.
    eapply Rle_trans; [apply (abs_plus _ _ _ _ E1 E2)|].
    assert (R2 : 1 <= rho ^ 2) by nra. assert (P44 : 0 < pw (-44)) by apply bpow_gt_0. assert (P46 : pw (-44) = 4 * pw (-46)) by (rewrite (pw_split 2 (-46) (-44)) by lia; reflexivity).
    assert (TG : th * g = pw (-44) * (rho ^ 2 * rho ^ 2) * S) by (unfold th; field; lra). rewrite TG. unfold S, dl. set (r2 := rho ^ 2) in *.
    replace (pw (-46) * (2 * rho) ^ 2 / (1 - dc)) with (4 * pw (-46) * r2 * / (1 - dc)) by (unfold r2; field; lra).
    replace (4 * r2 * (pw (-46) * r2 / (1 - dv))) with (4 * pw (-46) * (r2 * r2) * / (1 - dv)) by (field; lra). rewrite P46.
    assert (4 * pw (-46) * r2 * / (1 - dc) <= 4 * pw (-46) * (r2 * r2) * / (1 - dc)) by (apply Rmult_le_compat_r; [lra|]; apply Rmult_le_compat_l; [lra|]; nra). lra.
  Qed.
  Lemma fpipe x y i : okcol x i -> okcol y i -> g <= em x x i -> g <= em y y i ->
    let r := fmul (fmul (vol x (p + i)) (fmul (fmul (finv (mom x x i)) (mom x y i)) (finv (mom y y i)))) (vol y (p + i)) in
    isnum r /\ Rabs (fval r - sg x (p + i) * sg y (p + i) * (em x y i / (sqrt (em x x i) * sqrt (em y y i)))) <= B * M ^ 2.
  Proof.
    intros Hx Hy Gx Gy. destruct consts as (C1 & C2 & C3 & C4 & C5 & C6). pose proof uu_pos as U0. destruct dvb as [DV DC].
    rewrite B_th. destruct (fcol x i Hx i (le_n i)) as (Nx & Vx & _). destruct (fcol y i Hy i (le_n i)) as (Ny & Vy & _).
    assert (Sx : 0 <= sg x (p + i) <= M) by (split; [apply sqrt_pos|apply (sg_le x i Hx); lia]). assert (Sy : 0 <= sg y (p + i) <= M) by (split; [apply sqrt_pos|apply (sg_le y i Hy); lia]).
    assert (Big : forall z, okcol z i -> em z z i <= pw 200).
    { intros z Hz. apply Rle_trans with (rho * rho).
      - eapply Rle_trans; [apply Rle_abs|]. unfold em. apply ewavg_abs; [exact DC|]. intros s Hs. apply abs_mul_le; apply (fcol z i Hz s Hs).
      - apply Rle_trans with (pw 21 * pw 21); [apply Rmult_le_compat; lra|]. rewrite <- bpow_plus. apply bpow_le. lia. }
    destruct (fmom x x i Hx Hx) as [Nxx Exx]. destruct (fmom y y i Hy Hy) as [Nyy Eyy]. destruct (fmom x y i Hx Hy) as [Nxy Exy].
    apply (fscale (mom x x i) (mom y y i) (mom x y i) (vol x (p + i)) (vol y (p + i)) (em x x i) (em y y i) (em x y i) (sg x (p + i)) (sg y (p + i)) th g M); auto.
    - eapply Rle_trans; [|exact C6]. apply bpow_le. lia.
    - apply ewavg_cs; [exact DC| |]; fold (em x x i) (em y y i); lra.
    - eapply Rle_trans; [exact Vx|]. apply Rmult_le_compat_r; lra.
    - eapply Rle_trans; [exact Vy|]. apply Rmult_le_compat_r; lra.
  Qed.
End Acc.
