(** * The demo: prices in other units, gaps (C127). *)
From Coq Require Import String Reals Lra List Bool ZArith Arith Lia.
From Verif Require Import Num Py ListFacts Spec SpecEwma Ewma Combination FromEwmas Demo.
Import ListNotations.
Local Open Scope R_scope.

Lemma times_nan s x : 0 < s -> xisnan (times s x) = xisnan x.
Proof. intros Hs. destruct x; unfold times; simpl; auto; unfold inf_sgn; destruct (Rlt_dec 0 s); simpl; auto; destruct (Rlt_dec 0 (- s)), (Rlt_dec (- s) 0); simpl; auto; lra. Qed.
Lemma times_ratio s p c : 0 < s -> xdiv (times s c) (times s p) = xdiv c p.
Proof.
  intros Hs. assert (Hi : inf_sgn s = PInf) by (unfold inf_sgn; destruct (Rlt_dec 0 s); [auto|lra]).
  assert (Hj : inf_sgn (- s) = NInf) by (unfold inf_sgn; destruct (Rlt_dec 0 (- s)); [lra|]; destruct (Rlt_dec (- s) 0); [auto|lra]).
  assert (Hm : forall a, inf_sgn (s * a) = inf_sgn a).
  { intros a. unfold inf_sgn. destruct (Rlt_dec 0 (s * a)) as [H|H], (Rlt_dec 0 a) as [H'|H']; auto; try (exfalso; nra).
    destruct (Rlt_dec (s * a) 0), (Rlt_dec a 0); auto; exfalso; nra. }
  destruct c as [c| | |], p as [p| | |]; unfold times; cbn [xmul]; rewrite ?Hi, ?Hj; cbn [xdiv]; auto.
  - destruct (Req_EM_T (s * p) 0) as [E|E], (Req_EM_T p 0) as [E'|E'].
    + apply Hm.
    + exfalso. apply Rmult_integral in E. lra.
    + exfalso. apply E. rewrite E'. ring.
    + f_equal. field. lra.
  - destruct (Rlt_dec (s * p) 0), (Rlt_dec p 0); auto; exfalso; nra.
  - destruct (Rlt_dec (s * p) 0), (Rlt_dec p 0); auto; exfalso; nra.
Qed.

Section Units.
  Context (s : nat -> R).
  Hypothesis Hs : forall j, 0 < s j.
  Definition srow (r r' : list xr) : Prop := length r' = length r /\ forall j, (j < length r)%nat -> nth j r' NaN = times (s j) (nth j r NaN).

  Lemma srow_fill a a' r r' : srow a a' -> srow r r' ->
    srow (map2 (fun p x => if xisnan x then p else x) a r) (map2 (fun p x => if xisnan x then p else x) a' r').
  Proof.
    intros [La Ha] [Lr Hr]. split; [rewrite !map2_length; lia|]. intros j Hj. rewrite map2_length in Hj.
    rewrite !(map2_nth _ _ _ _ NaN NaN NaN) by lia. rewrite Ha, Hr, times_nan by (auto; lia). destruct (xisnan _); auto.
  Qed.
  Lemma sfill_from : forall rows rows' a a', srow a a' -> Forall2 srow rows rows' -> Forall2 srow (ffill_from (N := XR) a rows) (ffill_from (N := XR) a' rows').
  Proof. intros rows rows' a a' Ha H. revert a a' Ha. induction H as [|r r' rows rows' Hr _ IH]; intros a a' Ha; constructor; [|apply IH]; apply srow_fill; auto. Qed.
  Lemma srow_pct a a' r r' : srow a a' -> srow r r' -> 
    map2 (fun prev cur : xr => xsub (xdiv cur prev) (Fin 1)) a' r' = map2 (fun prev cur => xsub (xdiv cur prev) (Fin 1)) a r.
  Proof.
    intros [La Ha] [Lr Hr]. apply nth_ext with (d := NaN) (d' := NaN); rewrite !map2_length; [lia|]. intros j Hj.
    rewrite !(map2_nth _ _ _ _ NaN NaN NaN) by lia. rewrite Ha, Hr, times_ratio by (auto; lia). auto.
  Qed.
  Lemma spct rows rows' : Forall2 srow rows rows' -> forall r0 r0', srow r0 r0' ->
    map2 (map2 (fun prev cur : xr => xsub (xdiv cur prev) (Fin 1))) (r0' :: rows') rows' =
    map2 (map2 (fun prev cur => xsub (xdiv cur prev) (Fin 1))) (r0 :: rows) rows.
  Proof. induction 1 as [|r r' rows rows' Hr _ IH]; intros r0 r0' H0; auto. cbn [map2]. f_equal; [apply srow_pct; auto|]. apply (IH r r' Hr). Qed.

  Lemma rescaled_rows f g : wf_frame f -> rescaled s f g -> Forall2 srow (fvals f) (fvals g).
  Proof.
    intros [F1 F2] (E1 & E2 & [G1 G2] & H). rewrite E1 in G1. rewrite E2 in G2.
    assert (L : length (fvals f) = length (fvals g)) by congruence. rewrite F1 in H. clear E1 E2 F1 G1.
    unfold entry in H. revert L F2 G2 H. generalize (fvals f), (fvals g). induction l as [|r l IH]; intros [|r' l'] L F2 G2 H; try discriminate; constructor.
    - pose proof (Forall_inv F2) as A. pose proof (Forall_inv G2) as B. cbv beta in A, B. split; [exact (eq_trans B (eq_sym A))|]. intros j Hj. apply (H 0%nat j); [simpl; lia|rewrite <- A; exact Hj].
    - apply Forall_inv_tail in F2, G2. apply IH; auto. intros k j Hk Hj. apply (H (S k) j); [apply -> Nat.succ_lt_mono; exact Hk|exact Hj].
  Qed.
  Definition pct_of (d : list (list xr)) : list (list xr) :=
    match d with [] => [] | r :: rest => map (fun _ => NaN) r :: map2 (map2 (fun prev cur => xsub (xdiv cur prev) (Fin 1))) d rest end.
  Lemma pct_rows d d' : Forall2 srow d d' -> pct_of d' = pct_of d.
  Proof.
    intros HF. destruct HF as [|r r' l l' Hr Hl]; auto. unfold pct_of. f_equal.
    - destruct Hr as [L _]. clear - L. revert r L. induction r' as [|a r' IH]; intros [|b r] L; try discriminate; auto. simpl. f_equal. apply IH. auto.
    - apply (spct l l' Hl r r' Hr).
  Qed.
  Lemma pct_units pad f g : wf_frame f -> rescaled s f g -> pct_change (N := XR) pad g = pct_change pad f.
  Proof.
    intros Hf Hg. pose proof (rescaled_rows f g Hf Hg) as H. destruct Hg as (E1 & E2 & _ & _). unfold pct_change. rewrite E1, E2. f_equal.
    assert (HF : Forall2 srow (if pad then ffill (N := XR) (fvals f) else fvals f) (if pad then ffill (N := XR) (fvals g) else fvals g)).
    { destruct pad; auto. destruct H as [|r r' l l' Hr Hl]; constructor; auto. apply sfill_from; auto. }
    exact (pct_rows _ _ HF).
  Qed.
End Units.
