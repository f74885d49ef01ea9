(** * The sampling experiment: which covariance each sample is drawn from. *)
From Coq Require Import String List Bool ZArith Arith Lia.
From Verif Require Import Num Py ListFacts Ewma EwmaTot EwmaPrefix Spec Combination SpecComb CombFacts CombBuild CombSolve CombRun CombProps FromEwmas SpecFrom FromEwmasProps FromRun CmIewma CmRun Sampling.
Import ListNotations.

Lemma first_len {A} (l l' : list A) : firstn (length l) (l ++ l') = l.
Proof. rewrite firstn_app, Nat.sub_diag, firstn_all, firstn_O, app_nil_r. reflexivity. Qed.
Lemma last_opt_inv {A} (l : list A) a : last_opt l = Some a -> exists pre, l = pre ++ [a].
Proof.
  unfold last_opt. intros H. destruct (rev l) as [|b r] eqn:E; [discriminate|]. simpl in H. injection H as ->. exists (rev r).
  rewrite <- (rev_involutive l), E. simpl. auto.
Qed.

Section Sam.
  Context {N : Num} (LA : LinAlg) (label : option num * option num -> string)
          (to_mat : frame string -> l_mat LA) (to_vec : vec -> l_vec LA) (reg : l_mat LA -> l_mat LA).
  Context (slv : solver LA) (pairs : list (option num * option num)) (mpv mpc : nat) (window : option nat) (draw : nat -> l_mat LA -> res (list num)).
  Notation fit h := (fit_cm_iewma LA label to_mat to_vec reg slv pairs mpv mpc window h).
  Notation loop := (sampling_loop LA label to_mat to_vec reg slv pairs mpv mpc window draw).
  Notation go := (run_sampling_experiment LA label to_mat to_vec reg slv pairs mpv mpc window draw).

  Lemma loop_inv test steps : forall i f g, loop test i steps f = Ok g -> length (findex f) = length (fvals f) ->
    exists rows, g = mkFrame (findex f ++ firstn steps (skipn i test)) (fcols f) (fvals f ++ rows) /\ length rows = steps /\ length (firstn steps (skipn i test)) = steps /\
      forall j, j < steps -> exists c, fit (frame_take (length (findex f) + j) g) = Ok c /\ draw (i + j) c = Ok (nth j rows []) /\ length (nth j rows []) = length (fcols f).
  Proof.
    induction steps as [|s IH]; intros i f g H HL; cbn [sampling_loop] in H.
    - injection H as <-. exists []. rewrite !app_nil_r. destruct f. repeat split; auto. intros j Hj. lia.
    - destruct (fit f) as [c|] eqn:Ef; [|discriminate H]. cbn [bind] in H. destruct (draw i c) as [x|] eqn:Ed; [|discriminate H]. cbn [bind] in H.
      destruct (nth_error test i) as [t|] eqn:Et; [|discriminate H]. cbn [or_raise bind] in H. unfold append_row in H.
      destruct (Nat.eqb_spec (length x) (length (fcols f))) as [Ex|]; [|discriminate H]. cbn [bind] in H.
      set (f' := mkFrame (findex f ++ [t]) (fcols f) (fvals f ++ [x])) in *.
      assert (HL' : length (findex f') = length (fvals f')) by (unfold f'; cbn; rewrite !app_length, HL; reflexivity).
      destruct (IH (S i) f' g H HL') as (rows & Eg & L1 & L2 & Hj). exists (x :: rows).
      assert (Es : skipn i test = t :: skipn (S i) test).
      { clear - Et. revert test Et. induction i as [|i IH]; intros [|a l] Et; try discriminate Et; [cbn in Et; injection Et as ->; reflexivity|]. cbn in Et. cbn [skipn]. rewrite (IH l Et). reflexivity. }
      rewrite Es. cbn [firstn]. split; [|split; [cbn; rewrite L1; reflexivity|split; [cbn [length]; rewrite L2; reflexivity|]]].
      { rewrite Eg. unfold f'. cbn [findex fcols fvals]. rewrite <- !app_assoc. reflexivity. }
      intros j Hs. destruct j as [|j].
      + exists c. rewrite !Nat.add_0_r. split; [|split; [exact Ed|exact Ex]]. rewrite <- Ef. f_equal. rewrite Eg. unfold f', frame_take. cbn [findex fcols fvals].
        rewrite <- !app_assoc. rewrite (first_len (findex f)), HL, (first_len (fvals f)). destruct f; reflexivity.
      + destruct (Hj j ltac:(lia)) as (c' & H1 & H2 & H3). exists c'. rewrite <- H1. cbn [nth]. split; [|split; [rewrite <- H2; f_equal; lia|exact H3]].
        f_equal. f_equal. unfold f'. cbn [findex]. rewrite app_length. cbn. lia.
  Qed.
  Theorem structure train test steps g : length (findex train) = length (fvals train) -> go train test steps = Ok g ->
    exists rows, length rows = steps /\ length (firstn steps test) = steps /\
      g = mkFrame (findex train ++ firstn steps test) (fcols train) (fvals train ++ rows) /\
      forall i, i < steps -> exists c, fit (frame_take (length (findex train) + i) g) = Ok c /\ draw i c = Ok (nth i rows []) /\ length (nth i rows []) = length (fcols train).
  Proof.
    intros HL H. destruct (loop_inv _ _ _ _ _ H HL) as (rows & Eg & L1 & L2 & Hj). cbn [skipn] in *. exists rows. auto.
  Qed.

  Lemma loop_prefix test test' s : forall steps i f g, loop test i steps f = Ok g -> length (findex f) = length (fvals f) -> s <= steps ->
    firstn (i + s) test = firstn (i + s) test' -> loop test' i s f = Ok (frame_take (length (findex f) + s) g).
  Proof.
    induction s as [|s IH]; intros steps i f g H HL Hs Ht.
    - destruct (loop_inv _ _ _ _ _ H HL) as (rows & Eg & _). rewrite Nat.add_0_r. cbn [sampling_loop]. f_equal. rewrite Eg. unfold frame_take. cbn [findex fcols fvals].
      rewrite (first_len (findex f)), HL, (first_len (fvals f)). destruct f; reflexivity.
    - destruct steps as [|steps]; [lia|]. cbn [sampling_loop] in *. destruct (fit f) as [c|]; [|discriminate H]. cbn [bind] in *. destruct (draw i c) as [x|]; [|discriminate H]. cbn [bind] in *.
      assert (Et : nth_error test i = nth_error test' i).
      { assert (Z : forall l : list time, nth_error l i = nth_error (firstn (i + S s) l) i).
        { intros l. revert i IH Ht H. clear. intros i _ _ _. revert l. induction i as [|i IH]; intros [|a l]; try reflexivity. cbn. apply IH. }
        rewrite (Z test), (Z test'), Ht. reflexivity. }
      rewrite <- Et. destruct (nth_error test i) as [t|]; [|discriminate H]. cbn [or_raise bind] in *. unfold append_row in *.
      destruct (length x =? length (fcols f)); [|discriminate H]. cbn [bind] in *.
      rewrite (IH steps (S i) _ g H); [|cbn; rewrite !app_length, HL; reflexivity|lia|rewrite Nat.add_succ_r in Ht; exact Ht].
      f_equal. f_equal. cbn [findex]. rewrite app_length. cbn. lia.
  Qed.
  Theorem prefix train test test' steps s g : length (findex train) = length (fvals train) -> go train test steps = Ok g -> s <= steps ->
    firstn s test = firstn s test' -> go train test' s = Ok (frame_take (length (findex train) + s) g).
  Proof. intros HL H Hs Ht. apply (loop_prefix test test' s steps 0 train g H HL Hs Ht). Qed.
End Sam.

Section Replay.
  Context {N : Num} (LA : LinAlg) (label : option num * option num -> string)
          (to_mat : frame string -> l_mat LA) (to_vec : vec -> l_vec LA) (reg : l_mat LA -> l_mat LA).
  Context (slv : solver LA) (fast : option num * option num) (rest : list (option num * option num)) (mpv mpc w : nat).
  Notation pairs := (fast :: rest).
  Context (draw : nat -> l_mat LA -> res (list num)).
  Hypothesis Hnan : nisnan nnan = true.
  Hypothesis Hlab : forall p q, In p pairs -> In q pairs -> label p = label q -> p = q.
  Hypothesis Hw : 1 <= w.
  Notation cell h := (cm_iewma LA label to_mat to_vec reg slv h pairs mpv mpc (Some w)).
  Notation fit h := (fit_cm_iewma LA label to_mat to_vec reg slv pairs mpv mpc (Some w) h).

  Lemma take_take k k' (f : frame (N := N) time) : k <= k' -> frame_take k (frame_take k' f) = frame_take k f.
  Proof. intros H. unfold frame_take. cbn [findex fcols fvals]. rewrite !firstn_firstn, Nat.min_l by exact H. reflexivity. Qed.

  Lemma grow (f : frame time) k k' o : length (findex f) = length (fvals f) -> increasing (findex f) -> k <= k' ->
    iterated_ewma (pair_params mpv mpc None false fast) (frame_take k f) = Ok o ->
    forall o', iterated_ewma (pair_params mpv mpc None false fast) (frame_take k' f) = Ok o' -> length o <= length o'.
  Proof.
    intros HL HI Hk E o' E'. assert (GL := glen f k' HL). assert (GI := ginc f k' HI).
    pose proof (EwmaPrefix.no_look_ahead (pair_params mpv mpc None false fast) (frame_take k' f) k Hnan GL (increasing_NoDup _ GI)) as H.
    rewrite (take_take k k' f Hk), E in H. destruct H as (more & H & _). rewrite E' in H. injection H as ->. rewrite app_length. lia.
  Qed.

  Lemma cell_build h r : cell h = Ok r -> exists c, cm_build LA label to_mat to_vec reg h pairs mpv mpc = Ok c.
  Proof. unfold cm_iewma. destruct (cm_build _ _ _ _ _ _ _ _ _) as [c|]; [eauto|discriminate]. Qed.

  (** One fit found again in a longer run. *)
  Lemma refit (h : frame time) k o c covs' weights' : length (findex h) = length (fvals h) -> increasing (findex h) ->
    iterated_ewma (pair_params mpv mpc None false fast) (frame_take k h) = Ok o -> w < length o ->
    fit (frame_take k h) = Ok c -> cell h = Ok (covs', weights') ->
    exists pre t mc, covs' = pre ++ (t, c) :: mc /\ In t (firstn k (findex h)) /\ Forall (fun tc => In (fst tc) (skipn k (findex h))) mc.
  Proof.
    intros HL HI Eo Hlt Ef Ec. unfold fit_cm_iewma in Ef. destruct (cell (frame_take k h)) as [[cv wt]|] eqn:E; [|discriminate Ef]. cbn [bind fst] in Ef.
    destruct (last_opt cv) as [tS|] eqn:El; [|discriminate Ef]. cbn [or_raise bind] in Ef. injection Ef as <-. destruct (last_opt_inv _ _ El) as (pre & ->).
    pose proof (cm_no_look_ahead LA label to_mat to_vec reg fast rest mpv mpc Hnan Hlab h k HL HI slv w covs' weights' Ec) as H.
    destruct (cell_build _ _ E) as (cb & Eb). rewrite Eb in H.
    destruct (H fast o (or_introl eq_refl) Eo ltac:(lia)) as (cv2 & wt2 & mc & mw & E2 & E3 & _ & _ & _ & F & _). rewrite E in E2. injection E2 as <- <-.
    destruct tS as [t c]. exists pre, t, mc. rewrite E3, <- app_assoc. split; [reflexivity|]. split; [|exact F].
    destruct (cell_inv LA label to_mat to_vec reg fast rest mpv mpc slv (frame_take k h) (Some w) _ _ E) as (cb2 & rs & Hb2 & Hs & Ed & _).
    destruct (cm_runs LA label to_mat to_vec reg fast rest mpv mpc (frame_take k h) cb2 Hb2) as (outs & Ho).
    assert (GL := glen h k HL). assert (GI := ginc h k HI).
    destruct (cm_issue LA label to_mat reg fast rest mpv mpc Hnan Hlab (frame_take k h) outs GL (increasing_NoDup _ GI) Ho) as (sg & Hi).
    destruct (cm_known LA label to_mat to_vec reg fast rest mpv mpc Hnan Hlab (frame_take k h) outs sg GL GI Ho Hi) as (_ & I2 & _).
    destruct (cm_schedule LA label to_mat to_vec reg fast rest mpv mpc Hnan Hlab (frame_take k h) outs sg cb2 slv (Some w) rs GL GI Ho Hi Hb2 Hs) as (_ & Et & _).
    destruct (cell_lists LA label to_mat to_vec reg fast rest mpv mpc Hnan Hlab (frame_take k h) outs sg cb2 slv (Some w) rs GL GI Ho Hi Hb2 Hs) as (C1 & _).
    rewrite C1 in Ed. assert (Q : In t (map fst (pre ++ [(t, snd (t, c))]))) by (rewrite map_app; apply in_or_app; right; left; reflexivity).
    cbn [snd] in Q. rewrite Ed, map_map in Q. change (In t (map (r_time LA) rs)) in Q. rewrite Et in Q. exact (I2 t (skipn_In _ _ _ Q)).
  Qed.

  Theorem replay train test steps g h covs' weights' : length (findex train) = length (fvals train) ->
    run_sampling_experiment LA label to_mat to_vec reg slv pairs mpv mpc (Some w) draw train test steps = Ok g ->
    (forall o, iterated_ewma (pair_params mpv mpc None false fast) train = Ok o -> w < length o) ->
    length (findex h) = length (fvals h) -> increasing (findex h) ->
    (forall i, i < steps -> frame_take (length (findex train) + i) h = frame_take (length (findex train) + i) g) ->
    cell h = Ok (covs', weights') ->
    forall i, i < steps -> exists pre t c mc, covs' = pre ++ (t, c) :: mc /\ draw i c = Ok (nth (length (findex train) + i) (fvals g) []) /\
      In t (firstn (length (findex train) + i) (findex h)) /\ Forall (fun tc => In (fst tc) (skipn (length (findex train) + i) (findex h))) mc.
  Proof.
    intros HL Hr Ht GL GI Hh Hc i Hi. destruct (structure LA label to_mat to_vec reg slv pairs mpv mpc (Some w) draw train test steps g HL Hr) as (rows & L1 & L2 & Eg & Hj).
    destruct (Hj i Hi) as (c & Ef & Ed & _). set (m := length (findex train)) in *. rewrite <- (Hh i Hi) in Ef.
    assert (E0 : frame_take m h = train).
    { specialize (Hh 0 ltac:(lia)). rewrite Nat.add_0_r in Hh. rewrite Hh, Eg. unfold frame_take. cbn [findex fcols fvals]. unfold m.
      rewrite (first_len (findex train)). fold m. rewrite HL, (first_len (fvals train)). destruct train; reflexivity. }
    assert (Ef' := Ef). unfold fit_cm_iewma in Ef'. destruct (cell (frame_take (m + i) h)) as [[cv wt]|] eqn:E; [|discriminate Ef']. clear Ef'.
    destruct (cell_build _ _ E) as (cb & Eb). destruct (cm_runs LA label to_mat to_vec reg fast rest mpv mpc _ cb Eb) as (outs & Ho).
    assert (Eo := Ho fast (or_introl eq_refl)).
    destruct (Hj 0 ltac:(lia)) as (c0 & Ef0 & _). rewrite <- (Hh 0 ltac:(lia)), Nat.add_0_r, E0 in Ef0.
    unfold fit_cm_iewma in Ef0. destruct (cell train) as [[cv0 wt0]|] eqn:E1; [|discriminate Ef0]. clear Ef0.
    destruct (cell_build _ _ E1) as (cb0 & Eb0). destruct (cm_runs LA label to_mat to_vec reg fast rest mpv mpc _ cb0 Eb0) as (outs0 & Ho0).
    assert (Eo0 := Ho0 fast (or_introl eq_refl)). assert (Lw := Ht _ Eo0).
    assert (LG : length (outs0 fast) <= length (outs fast)) by (apply (grow h m (m + i) (outs0 fast) GL GI ltac:(lia)); [rewrite E0; exact Eo0|exact Eo]).
    destruct (refit h (m + i) (outs fast) c covs' weights' GL GI Eo ltac:(lia) Ef Hc) as (pre & t & mc & F1 & F2 & F3).
    exists pre, t, c, mc. split; [exact F1|]. split; [|split; [exact F2|exact F3]]. rewrite Ed, Eg. cbn [fvals]. rewrite app_nth2 by (rewrite <- HL; unfold m; lia). do 2 f_equal. rewrite <- HL. unfold m. lia.
  Qed.
End Replay.
