(** * No look-ahead in low_rank_iterated_ewma. *)
From Coq Require Import Reals ZArith String List Lia Lra Psatz.
Set Warnings "-notation-overridden,-ambiguous-paths".
From mathcomp Require Import all_ssreflect all_algebra.
From Verif Require Import RStruct MatR Num Py ListFacts Spec Ewma EwmaTot EwmaPrefix XRFacts EwmaReal EwmaTab EwmaFin EwmaProps EwmaProps2 EwmaProps3 EwmaClosed
  Combination Regularization SpecReg RegProps SpecEwma LowRankEwma SpecLowRank LowRankProps LowRankStages LowRankPipe CombReal LowRankPipeProps CombProps.
Set Implicit Arguments.
Unset Strict Implicit.
Unset Printing Implicit Defensive.
Import GRing.Theory.
Local Open Scope ring_scope.
Delimit Scope R_scope with re.

Section Loop.
  Context (n k : nat) (eigsh : eigsh_t n k).

  Lemma lr_loop_app b rows : forall m st rows', 
    match (lr_loop eigsh b m st rows).2 with
    | Some e => lr_loop eigsh b m st (rows ++ rows') = lr_loop eigsh b m st rows
    | None => exists more, (lr_loop eigsh b m st (rows ++ rows')).1 = (lr_loop eigsh b m st rows).1 ++ more
    end.
  Proof.
    elim: rows => [|row rows IH] m st rows' /=; first by exists (lr_loop eigsh b m st rows').1.
    case: (lr_step _ _ _ _ _) => [st1|e] //=. have := IH m.+1 st1 rows'. case He: (lr_loop eigsh b m.+1 st1 rows).2 => [e|].
    - by move=> ->; rewrite He.
    - by case=> more ->; exists more.
  Qed.
  Lemma general_app h rows rows' : (0 < size rows)%N ->
    match (general_low_rank eigsh rows h).2 with
    | Some e => general_low_rank eigsh (rows ++ rows') h = general_low_rank eigsh rows h
    | None => exists more, (general_low_rank eigsh (rows ++ rows') h).1 = (general_low_rank eigsh rows h).1 ++ more
    end.
  Proof.
    case: rows => [//|y0 rows] _. rewrite /general_low_rank. case: h => [h|//]. case: Req_EM_T => // Hh /=. case: eqP => // _ /=.
    have := lr_loop_app (exp (- ln 2 / h)%re) rows 1 (F_init k y0, 0) rows'.
    case He: (lr_loop _ _ _ _ rows).2 => [e|].
    - by move=> ->; rewrite He.
    - by case=> more ->; exists more.
  Qed.
  Lemma zip_short (A B : Type) (s s' : seq A) (u : seq B) : (size u <= size s)%N -> zip (s ++ s') u = zip s u.
  Proof. elim: s u => [|a s IH] [|b u] //=; first by case: s'. move=> H. by rewrite IH. Qed.
  Lemma zip_cat_ex (A B : Type) (s s' : seq A) (u u' : seq B) : size u = size s -> zip (s ++ s') (u ++ u') = zip s u ++ zip s' u'.
  Proof. move=> H. by rewrite zip_cat // H. Qed.

  Lemma items_app ts ts' rows rows' h mp : size ts = size rows -> (0 < size rows)%N ->
    let g' := ewma_low_rank eigsh ts rows h mp in let g := ewma_low_rank eigsh (ts ++ ts') (rows ++ rows') h mp in
    g'.1 = take (size ts - mp.-1) g.1 /\ (g'.2 <> None -> g.1 = g'.1 /\ g.2 = g'.2).
  Proof.
    move=> Hs H0. rewrite /ewma_low_rank /=. have := @general_app h rows rows' H0. have Hle := general_size_le eigsh rows h. have Heq := @general_size n k eigsh rows h.
    case: eqP => _.
      case He: (general_low_rank eigsh rows h).2 => [e|] H; split=> //. by rewrite H He.
    case He: (general_low_rank eigsh rows h).2 Heq => [e|] Heq.
    - move=> ->. rewrite zip_short ?Hs // He. split=> //. rewrite take_oversize // size_drop size_zip -Hs. apply: leq_sub2r. exact: geq_minl.
    - case=> more ->. have Hz : size (general_low_rank eigsh rows h).1 = size ts by rewrite Heq.
      rewrite zip_cat_ex //. split=> //. set A := zip ts _. have HA : size A = size ts by rewrite size_zip Hz minnn.
      rewrite take_drop. case: (leqP mp.-1 (size ts)) => Hq.
      + by rewrite subnK // -HA take_size_cat.
      + have -> : (size ts - mp.-1 = 0)%N by lia. rewrite add0n drop_oversize ?HA; last by lia. rewrite drop_oversize // size_take. case: ltnP => Hlt; lia.
  Qed.
End Loop.

Lemma valid_take (f : frame (N := XR) time) m : valid_returns f -> valid_returns (frame_take m f).
Proof.
  move=> [[H1 H2] [H3 H4]]. split; [split|split] => //=.
  - by rewrite !List.firstn_length H1.
  - apply/List.Forall_forall => r Hr. move/List.Forall_forall: H2. apply. have := List.firstn_skipn m (fvals f) => <-. apply/List.in_or_app. by left.
  - apply: (@increasing_app_l _ (List.skipn m (findex f))). by rewrite List.firstn_skipn.
Qed.
Lemma returns_take (f : frame (N := XR) time) x m : returns_are false f x -> returns_are false (frame_take m f) x.
Proof.
  move=> H q j Hq Hj. rewrite /= in Hq Hj. rewrite List.firstn_length in Hq.
  have := H q j ltac:(lia) Hj. rewrite /entry /=. 
  have -> // : List.nth q (List.firstn m (fvals f)) [::] = List.nth q (fvals f) [::]. 
  have Hqm : (q < m)%coq_nat by lia. move: (fvals f) Hqm. clear. elim: m q => [|m IH] [|q] [|a l] Hq //=; try lia. apply: IH. lia.
Qed.

Section Prefix.
  Variables (P : params (N := XR)) (f : frame (N := XR) time) (x : nat -> nat -> R) (hv hc h1 h2 : R) (rc : option R).
  Hypothesis HS : settings P hv hc h1 h2 rc.
  Hypothesis Hf : valid_returns f.
  Hypothesis Hx : returns_are false f x.
  Let n := length (fcols f).
  Let T := length (findex f).
  Let fp := first_pos (min_periods_vola P).
  Hypothesis Hmv : forall j, (j < n)%coq_nat -> exists s, (s <= fp)%coq_nat /\ centred (use_mean P) h1 x j s <> IZR 0.
  Context (k : nat) (eigsh : eigsh_t n k) (m : nat).
  Hypothesis Hm : (fp < m <= T)%N.

  Lemma prefix_main : let g' := @low_rank_iterated_ewma n k eigsh P (frame_take m f) in let g := low_rank_iterated_ewma eigsh P f in
    g'.1 = take (m - fp - (min_periods_cov P).-1) g.1 /\ (g'.2 <> None -> g.1 = g'.1 /\ g.2 = g'.2).
  Proof.
    have HT : (fp < T)%coq_nat by apply/ltP; lia.
    have Hf' := @valid_take f m Hf. have Hx' := @returns_take f x m Hx.
    have HTm : length (findex (frame_take m f)) = m by rewrite /= List.firstn_length -/T; lia.
    have HT' : (fp < length (findex (frame_take m f)))%coq_nat by rewrite HTm; apply/ltP; lia.
    have [E1 [E2 E3]] := pipe_run HS Hf Hx Hmv HT eigsh.
    have [E1' [E2' E3']] := @pipe_run P (frame_take m f) x hv hc h1 h2 rc HS Hf' Hx' Hmv HT' k eigsh.
    set fm := frame_take m f in E1' E2' E3' *.
    set gs := ewma_low_rank eigsh _ _ _ _ in E1 E2 E3. set gs' := ewma_low_rank eigsh _ _ _ _ in E1' E2' E3'.
    have HK := K_all P f x hv hc h1 h2 rc HS Hf Hmv HT. have HK' := K_all P fm x hv hc h1 h2 rc HS Hf' Hmv HT'.
    have Ekp i : (i < m - fp)%N -> kpos P hv h1 rc (findex fm) (fcols fm) x i = (fp + i)%N.
      move=> Hi. rewrite /kpos HK' List.seq_nth // HTm. exact/ltP.
    have Ekf i : (i < m - fp)%N -> kpos P hv h1 rc (findex f) (fcols f) x i = (fp + i)%N.
      move=> Hi. rewrite /kpos HK List.seq_nth //. rewrite -/T -/fp. lia.
    (* states *)
    have Erows : std_rows P fm x hv h1 h2 rc = take (m - fp) (std_rows P f x hv h1 h2 rc).
      apply: (@eq_from_nth _ 0).
        rewrite size_take (std_rows_size P fm) (std_rows_size P f) HTm -/T -/fp. case: ltnP => ?; lia.
      move=> i. rewrite std_rows_size HTm -/fp => Hi. rewrite nth_take // (@std_rows_nth P fm) ?HTm -?/T -?/fp // (@std_rows_nth P f); last by rewrite -/T -/fp; lia.
      apply/matrixP => j q. rewrite !mxE.
      rewrite (@adj_closed P fm x hv hc h1 h2 rc HS Hf' Hmv HT' i j); last by rewrite HTm; apply/ltP.
      rewrite (@adj_closed P f x hv hc h1 h2 rc HS Hf Hmv HT i j) //. rewrite -/T -/fp. lia.
    have Etimes : List.skipn fp (findex fm) = take (m - fp) (List.skipn fp (findex f)).
      apply: (@eq_from_nth _ Z0).
        rewrite size_take -!len_size !List.skipn_length HTm -/T. case: ltnP => ?; lia.
      move=> i. rewrite -len_size List.skipn_length HTm => Hi. rewrite nth_take // -!nth_same !nth_skipn_z /=.
      rewrite -{2}(List.firstn_skipn m (findex f)) List.app_nth1 //. rewrite List.firstn_length -/T. lia.
    have Hsplit : gs = ewma_low_rank eigsh (List.skipn fp (findex fm) ++ drop (m - fp) (List.skipn fp (findex f)))
        (std_rows P fm x hv h1 h2 rc ++ drop (m - fp) (std_rows P f x hv h1 h2 rc)) (Some hc) (min_periods_cov P).
      by rewrite Erows Etimes !cat_take_drop.
    have Hts : size (List.skipn fp (findex fm)) = (m - fp)%N by rewrite -len_size List.skipn_length HTm.
    have Hrs : size (std_rows P fm x hv h1 h2 rc) = (m - fp)%N by rewrite std_rows_size HTm.
    have Happ := @items_app n k eigsh (List.skipn fp (findex fm)) (drop (m - fp) (List.skipn fp (findex f))) (std_rows P fm x hv h1 h2 rc)
       (drop (m - fp) (std_rows P f x hv h1 h2 rc)) (Some hc) (min_periods_cov P). 
    cbv zeta in Happ. rewrite -Hsplit Hts Hrs -/gs' in Happ. have {Happ} [A1 A2] := Happ erefl ltac:(lia).
    (* items *)
    set q := (min_periods_cov P).-1 in A1 E3 E3' *.
    have Hit i : (i < m - fp)%N ->
      (forall j, pv P hv h1 rc x j (kpos P hv h1 rc (findex fm) (fcols fm) x i) = pv P hv h1 rc x j (kpos P hv h1 rc (findex f) (fcols f) x i)) /\
      imean (pitem P hv hc h1 h2 rc (findex fm) (fcols fm) x i) = imean (pitem P hv hc h1 h2 rc (findex f) (fcols f) x i) /\
      ivol (pitem P hv hc h1 h2 rc (findex fm) (fcols fm) x i) = ivol (pitem P hv hc h1 h2 rc (findex f) (fcols f) x i).
      move=> Hi. split; first by move=> j; rewrite Ekp // Ekf.
      rewrite /pitem; cbn [imean ivol]. rewrite Ekp // Ekf //. split=> //. case: (use_mean P) => //. apply: List.map_ext => j. do 3 f_equal.
      apply: ewavg_ext => s /leP Hs. have Hs' : (s < m - fp)%N by apply: leq_ltn_trans Hs Hi. by rewrite /pa0 Ekp // Ekf.
    set g := low_rank_iterated_ewma eigsh P f in E1 E2 E3 *. set g' := low_rank_iterated_ewma eigsh P fm in E1' E2' E3' *.
    have Hsz' : (size gs'.1 <= m - fp - q)%N by rewrite A1 size_take; case: ltnP => ?; lia.
    have Hnth p : (p < m - fp - q)%N -> List.nth_error gs'.1 p = List.nth_error gs.1 p -> List.nth_error g'.1 p = List.nth_error g.1 p.
      move=> Hp Heq. rewrite E3' E3 Heq. case: (List.nth_error gs.1 p) => [[t st]|] //. rewrite {1}/omap {1}/obind {1}/oapp /omap /obind /oapp. have [Hv [-> ->]] := Hit (q + p)%N ltac:(lia).
      congr (Some (LrItem _ _ (scale_low_rank _ _) _)). apply/matrixP => i j. by rewrite !mxE.
    have Hext (l l' : seq (lr_item n k)) : (forall p, List.nth_error l p = List.nth_error l' p) -> l = l'.
      elim: l l' => [|a l IH] [|b l'] H //; [by have := H 0%N|by have := H 0%N|]. have := H 0%N => /= -[->]. congr (_ :: _). apply: IH => p. exact: (H p.+1).
    have Htake (A : Type) (l : seq A) r p : List.nth_error (take r l) p = if (p < r)%N then List.nth_error l p else None.
      elim: l r p => [|a l IH] [|r] [|p] //=. by case: ifP. exact: IH.
    have Hmain : g'.1 = take (m - fp - q) g.1.
      apply: Hext => p. rewrite Htake. case: ltnP => Hp; last first.
        apply/List.nth_error_None. rewrite len_size E2'. apply/leP. exact: leq_trans Hsz' Hp.
      apply: Hnth => //. by rewrite A1 Htake Hp.
    split=> // He. rewrite E1' in He. have [B1 B2] := A2 He. split; last by rewrite E1 E1'.
    rewrite Hmain take_oversize // E2 B1. exact: Hsz'.
  Qed.
End Prefix.
