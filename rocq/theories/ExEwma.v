(** * Concrete inputs that meet the hypotheses of the ewma.py theorems. *)
From Coq Require Import String Reals Lra Psatz List Bool ZArith Arith Lia Permutation.
From Verif Require Import Num Py ListFacts Ewma EwmaTot EwmaPrefix EwmaEquiv XRFacts Spec SpecEwma EwmaReal EwmaTab EwmaFin EwmaProps EwmaProps3.
Import ListNotations.
Local Open Scope R_scope.

(** Five days, two assets; one missing return of B. *)
Definition ex_x (j k : nat) : R :=
  nth k (nth j [[1; -1; 2; 0; 1]; [2; 1; -1; 0; 3]] []) 0.
Definition ex_rows (b : xr) : list (list xr) :=
  [[Fin 1; Fin 2]; [Fin (-1); Fin 1]; [Fin 2; Fin (-1)]; [Fin 0; b]; [Fin 1; Fin 3]].
Definition ex_f : frame (N := XR) time := mkFrame [1;2;3;4;7]%Z ["A";"B"]%string (ex_rows NaN).
Definition ex_g : frame (N := XR) time := mkFrame [1;2;3;4;7]%Z ["A";"B"]%string (ex_rows (Fin 0)).
Definition ex_P (mean : bool) (mpv mpc : nat) (c : option xr) (fill : bool) : params (N := XR) :=
  mkParams (N := XR) (Some (Fin 2)) (Some (Fin 3)) mpv mpc mean None (Some (Fin 5)) c fill.

Lemma ex_valid b : valid_returns (mkFrame (N := XR) [1;2;3;4;7]%Z ["A";"B"]%string (ex_rows b)).
Proof.
  split; [split; [reflexivity|repeat constructor]|]. split; [simpl; lia|discriminate].
Qed.
Lemma ex_returns : returns_are true ex_f ex_x.
Proof.
  intros k j Hk Hj. simpl in Hk, Hj. destruct j as [|[|j]]; [| |lia];
    destruct k as [|[|[|[|[|k]]]]]; try lia; unfold entry; simpl; auto.
Qed.
Lemma ex_returns_g b : returns_are b ex_g ex_x.
Proof.
  intros k j Hk Hj. simpl in Hk, Hj. destruct j as [|[|j]]; [| |lia];
    destruct k as [|[|[|[|[|k]]]]]; try lia; simpl; auto.
Qed.
Lemma ex_settings mean mpv mpc fill : settings (ex_P mean mpv mpc None fill) 2 3 2 5 None.
Proof.
  split; [split; [reflexivity|lra]|]. split; [split; [reflexivity|lra]|].
  split; [left; auto|]. split; [right; split; [reflexivity|lra]|]. left; reflexivity.
Qed.
Lemma ex_settings_clip mean mpv mpc fill : settings (ex_P mean mpv mpc (Some (Fin 3)) fill) 2 3 2 5 (Some 3).
Proof.
  split; [split; [reflexivity|lra]|]. split; [split; [reflexivity|lra]|].
  split; [left; auto|]. split; [right; split; [reflexivity|lra]|]. split; [reflexivity|lra].
Qed.

Lemma ex_centred : centred true 2 ex_x 0 1 <> 0.
Proof.
  unfold centred, ewavg. pose proof (decay_bounds 2 ltac:(lra)) as Hb. set (b := decay 2) in *. simpl. unfold ex_x. simpl.
  intros E. assert (H : (-1 - (0 + b * 1 * 1 + 1 * -1) / (0 + b * 1 + 1)) * (b + 1) = 0) by (rewrite E; ring).
  replace ((-1 - (0 + b * 1 * 1 + 1 * -1) / (0 + b * 1 + 1)) * (b + 1)) with (- (2 * b)) in H by (field; lra). lra.
Qed.

(** The run succeeds and yields several items. *)
Lemma ex_run_false c rc mpv mpc : (1 <= mpv <= 3)%nat -> (1 <= mpc <= 2)%nat ->
  (c = None /\ rc = None) \/ (c = Some (Fin 3) /\ rc = Some 3) ->
  exists outs, iterated_ewma (ex_P false mpv mpc c true) ex_f = Ok outs /\
    map itime outs = skipn (mpv - 1 + (mpc - 1)) [1;2;3;4;7]%Z.
Proof.
  intros Hv Hm Hc.
  assert (HS : settings (ex_P false mpv mpc c true) 2 3 2 5 rc).
  { destruct Hc as [[-> ->]|[-> ->]]; [apply ex_settings|apply ex_settings_clip]. }
  destruct (schedule_full (ex_P false mpv mpc c true) ex_f ex_x 2 3 2 5 rc HS (ex_valid NaN) ex_returns) as (outs & H1 & H2).
  - cbn [ex_P min_periods_vola ex_f findex length]. lia.
  - exists 0%nat, 0%nat. simpl. split; [lia|]. split; [lia|]. unfold centred, ex_x; simpl; intros E; lra.
  - exists outs. split; auto.
Qed.
Lemma ex_run_true mpc : (1 <= mpc <= 2)%nat ->
  exists outs, iterated_ewma (ex_P true 2 mpc None true) ex_f = Ok outs /\ map itime outs = skipn mpc [1;2;3;4;7]%Z.
Proof.
  intros Hm.
  destruct (schedule_full (ex_P true 2 mpc None true) ex_f ex_x 2 3 2 5 None (ex_settings _ _ _ _) (ex_valid NaN) ex_returns) as (outs & H1 & H2).
  - cbn [ex_P min_periods_vola ex_f findex length]. lia.
  - exists 0%nat, 1%nat. simpl. split; [lia|]. split; [unfold first_pos; lia|apply ex_centred].
  - exists outs. split; auto. rewrite H2. cbn [min_periods_vola min_periods_cov ex_P]. unfold first_pos. f_equal. lia.
Qed.

(** A poisoned asset: A misses its first return. *)
Definition exn_f : frame (N := XR) time := mkFrame [1;2]%Z ["A";"B"]%string [[NaN; Fin 1]; [Fin 1; Fin 1]].
Definition exn_P : params (N:=XR) := mkParams (N:=XR) (Some (Fin 1)) (Some (Fin 1)) 1 1 false None None None false.
Lemma exn_valid : valid_returns exn_f.
Proof. split; [split; [reflexivity|repeat constructor]|]. split; [simpl; lia|discriminate]. Qed.

Lemma bhalf : beta_of (Some (Fin 1)) None = Ok (Fin (1/2)).
Proof. rewrite beta_of_fin by lra. unfold decay. rewrite Rinv_1, Rpower_Ropp, Rpower_1 by lra. do 2 f_equal. lra. Qed.
Lemma exn_run : exists outs o, iterated_ewma exn_P exn_f = Ok outs /\ In o outs /\ itime o = 2%Z.
Proof.
  assert (Hg : good exn_f) by (split; [reflexivity|repeat constructor; simpl; intuition lia]).
  rewrite (iterated_ewma_eq (N:=XR) exn_P exn_f (Fin (1/2)) (Fin (1/2)) (Fin (1/2)) (Fin (1/2)) eq_refl Hg);
    [|intros; apply bhalf|apply bhalf|intros; apply bhalf|apply bhalf].
  unfold it_tot, adj_tot, adj0_tot, volaf_tot, ret_tot.
  cbn [exn_P use_mean prep nan_to_num center_tot fst min_periods_vola min_periods_cov p_clip_at vola_tot sqclip truthy].
  set (V := vola_tot _ _ _ _).
  assert (EV : V = mkFrame [1;2]%Z ["A";"B"]%string [[NaN; Fin 1]; [NaN; Fin 1]]).
  { unfold V, vola_tot, meanf_tot, mean_tot, toframe, gen_tot, states, fmap. cbn.
    unfold xsub, xopp. cbn. destruct (Req_EM_T (1 + - (1 / 2 * (1 / 2 * 1))) 0); [lra|]. cbn.
    replace (1 * 1 + (1 + - (1 / 2)) * (1 * 1 + - (1 * 1)) / (1 + - (1 / 2 * (1 / 2 * 1)))) with 1 by (field; lra).
    replace (1 * 1) with 1 by ring. destruct (Rlt_dec 1 0); [lra|]. rewrite sqrt_1. reflexivity. }
  rewrite EV.
  assert (EA : adjusted exn_P exn_f (mkFrame [1;2]%Z ["A";"B"]%string [[NaN; Fin 1]; [NaN; Fin 1]]) =
               mkFrame [1;2]%Z ["A";"B"]%string [[Fin 0; Fin 1]; [Fin 0; Fin 1]]).
  { unfold adjusted, falign, floc, clip. cbn. destruct (Req_EM_T 1 0); [lra|]. cbn.
    replace (1 / 1) with 1 by field. reflexivity. }
  change (mkParams (N:=XR) (Some (Fin 1)) (Some (Fin 1)) 1 1 false None None None false) with exn_P.
  rewrite EA. cbn [fvals isnil].
  match goal with |- context [cov_tot ?b ?m ?f] => set (C := cov_tot b m f) end.
  assert (EC : exists a b, C = [a; b] /\ fst b = 2%Z).
  { unfold C, cov_tot, gen_tot. cbn. unfold xsub, xopp. cbn.
    destruct (Req_EM_T (1 + - (1 / 2 * (1 / 2 * 1))) 0); [lra|]. cbn. do 2 eexists. split; reflexivity. }
  destruct EC as (a & b & -> & Eb). cbn [map]. do 2 eexists. split; [reflexivity|].
  split; [right; left; reflexivity|]. exact Eb.
Qed.

(** An asset that starts with zeros (the winsorisation trap). *)
Definition ext_x (j k : nat) : R := nth k (nth j [[0; 0; 5]; [1; 2; 3]] []) 0.
Definition ext_f : frame (N := XR) time :=
  mkFrame [1;2;3]%Z ["A";"B"]%string [[Fin 0; Fin 1]; [Fin 0; Fin 2]; [Fin 5; Fin 3]].
Lemma ext_valid : valid_returns ext_f.
Proof. split; [split; [reflexivity|repeat constructor]|]. split; [simpl; lia|discriminate]. Qed.
Lemma ext_returns b : returns_are b ext_f ext_x.
Proof.
  intros k j Hk Hj. simpl in Hk, Hj. left. destruct j as [|[|j]]; [| |lia];
    destruct k as [|[|[|k]]]; try lia; unfold entry; simpl; f_equal; try ring.
Qed.
Lemma ext_run : exists outs, iterated_ewma (ex_P false 1 1 (Some (Fin 3)) true) ext_f = Ok outs /\ map itime outs = [1;2;3]%Z.
Proof.
  destruct (schedule_full (ex_P false 1 1 (Some (Fin 3)) true) ext_f ext_x 2 3 2 5 (Some 3) (ex_settings_clip _ _ _ _) ext_valid (ext_returns _)) as (outs & H1 & H2).
  - cbn [ex_P min_periods_vola ex_f ext_f findex length]. lia.
  - exists 1%nat, 0%nat. simpl. split; [lia|]. split; [lia|]. unfold centred, ex_x; try unfold ext_x; simpl; intros E; lra.
  - exists outs. auto.
Qed.

Definition exc_f : frame (N := XR) time :=
  mkFrame [1;2;3]%Z ["A";"B"]%string [[Fin 1; Fin 2]; [Fin 1; Fin 2]; [Fin 1; Fin 2]].
Lemma exc_ok : valid_returns exc_f /\ fvals exc_f <> [] /\ returns_are false exc_f (fun j _ => INR (S j)).
Proof.
  split; [split; [split; [reflexivity|repeat constructor]|]; split; [simpl; lia|discriminate]|].
  split; [discriminate|]. intros k j Hk Hj. simpl in Hk, Hj. left. destruct j as [|[|j]]; [| |lia];
    destruct k as [|[|[|k]]]; try lia; unfold entry; simpl; f_equal; ring.
Qed.
Definition exl_f : frame (N := XR) time := mkFrame [1;2]%Z ["A";"B"]%string [[NaN; Fin 5]; [NaN; NaN]].

Lemma ex_vol : exists v a b', volatility ex_g (Some (Fin 2)) 1 (Some (Fin 3)) = Ok v /\
  entry v (1 - first_pos 1) 0 = Fin a /\ entry v (2 - first_pos 1) 0 = Fin b'.
Proof.
  destruct (EwmaProps2.volatility_explicit ex_g ex_x 2 1 (Some (Fin 3)) (Some 3)) as (v & H1 & _ & _ & H4);
    [apply ex_valid|apply ex_returns_g|discriminate|lra|split; [reflexivity|lra]|].
  exists v. do 2 eexists. split; [exact H1|]. split; apply H4; cbn [findex ex_g length fcols]; unfold first_pos; simpl; lia.
Qed.

Definition ex_g2 : frame (N := XR) time := mkFrame [1;2;3;4;7]%Z ["A";"B"]%string
  [[Fin 1; Fin 4]; [Fin (-1); Fin 2]; [Fin 2; Fin (-2)]; [Fin 0; Fin 0]; [Fin 1; Fin 6]].
Lemma ex_rescaled : rescaled (fun j => INR (S j)) ex_g ex_g2 /\ ex_g2 <> ex_g.
Proof.
  split.
  - split; [reflexivity|]. split; [reflexivity|]. split; [split; [reflexivity|repeat constructor]|].
    intros k j Hk Hj. simpl in Hk, Hj. destruct j as [|[|j]]; [| |lia];
      destruct k as [|[|[|[|[|k]]]]]; try lia; unfold entry, times; simpl; f_equal; ring.
  - intros E. injection E as E _. lra.
Qed.
