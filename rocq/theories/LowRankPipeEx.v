(** * Concrete runs of low_rank_iterated_ewma. *)
From Coq Require Import Reals ZArith String List Lia Lra Psatz.
Set Warnings "-notation-overridden,-ambiguous-paths".
From mathcomp Require Import all_ssreflect all_algebra.
From Verif Require Import RStruct MatR Num Py ListFacts Spec Ewma EwmaTot EwmaPrefix EwmaReal EwmaFin EwmaProps3 EwmaClosed Combination Regularization SpecReg SpecEwma ExEwma
  LowRankEwma SpecLowRank LowRankProps LowRankStages LowRankPipe LowRankPipeProps LowRankPrefix.
Set Implicit Arguments.
Unset Strict Implicit.
Unset Printing Implicit Defensive.
Import GRing.Theory.
Local Open Scope ring_scope.
Delimit Scope R_scope with re.

(** Statement form of the lemmas of LowRankPipeProps.v. *)
Section Final.
  Variables (P : params (N := XR)) (f : frame (N := XR) time) (x : nat -> nat -> R) (hv hc h1 h2 : R) (rc : option R).
  Hypothesis HS : settings P hv hc h1 h2 rc.
  Hypothesis Hf : valid_returns f.
  Hypothesis Hx : returns_are false f x.
  Let n := length (fcols f).
  Hypothesis Hmv : forall j, (j < n)%coq_nat -> exists s, (s <= first_pos (min_periods_vola P))%coq_nat /\ centred (use_mean P) h1 x j s <> IZR 0.
  Hypothesis HT : (first_pos (min_periods_vola P) < length (findex f))%coq_nat.

  Lemma agrees_main k (eigsh : eigsh_t n k) : eigsh_ok eigsh ->
    let g := low_rank_iterated_ewma eigsh P f in
    exists outs, iterated_ewma P f = Ok outs /\ (size g.1 <= size outs)%N /\ (g.2 = None -> size g.1 = size outs) /\
    forall p it, List.nth_error g.1 p = Some it ->
      exists o, List.nth_error outs p = Some o /\ l_time it = itime o /\ l_mean it = imean o /\ l_vol it = ivol o /\
        match l_cov it with
        | Some (F, d) =>
            exists E, psd E /\ (forall i, d i 0 = E i i) /\ (forall i j : 'I_n, cov_at o i j = Fin ((F *m F^T + E)%R i j)) /\
              (((min_periods_cov P).-1 + p < k)%N -> E = 0)
        | None => exists i : 'I_n, cov_at o i i = NaN
        end.
  Proof.
    move=> Hok g. have HO := iter_items P f x hv hc h1 h2 rc HS Hf Hx Hmv HT. eexists. split; first exact: HO.
    have [H1 H2] := agree_count HS Hf Hx Hmv HT eigsh HO. split=> //. split=> // p it Hit.
    exact: (agree HS Hf Hx Hmv HT Hok HO Hit).
  Qed.
End Final.

Definition lx_f : frame (N := XR) time := frame_take 3 ex_g.
Definition lx_P : params (N := XR) := ex_P false 1 1 None false.
Lemma lx_valid : valid_returns lx_f.
Proof. apply: valid_take. exact: ex_valid. Qed.
Lemma lx_ret : returns_are false lx_f ex_x.
Proof. apply: returns_take. exact: ex_returns_g. Qed.
Lemma lx_nz j s : (j < 2)%N -> (s < 3)%N -> ex_x j s <> IZR 0.
Proof. case: j => [|[|j]] // _; case: s => [|[|[|s]]] // _; rewrite /ex_x /=; lra. Qed.
Lemma lx_moved j : (j < length (fcols lx_f))%coq_nat -> exists s, (s <= first_pos (min_periods_vola lx_P))%coq_nat /\ centred (use_mean lx_P) 2 ex_x j s <> IZR 0.
Proof. move=> /ltP Hj. exists 0%N. split=> //. exact: lx_nz. Qed.
Lemma lx_len : (first_pos (min_periods_vola lx_P) < length (findex lx_f))%coq_nat.
Proof. apply/ltP. by []. Qed.
Lemma lx_settings : settings lx_P 2 3 2 5 None.
Proof. exact: ex_settings. Qed.

Lemma lx_winsor (y : nat -> R) i : y 0%N <> IZR 0 -> (0 < winsor_var 2 1 None y i)%re.
Proof.
  move=> H0. elim: i => [|i IH] /=; first by nra.
  have Hb := decay_bounds 2 ltac:(lra). rewrite eweight_wnew //. have Hw1 := wnew_pos _ Hb i.+1. have Hw2 := wnew_lt1 _ Hb i.+1 ltac:(lia).
  set w := wnew _ _ in Hw1 Hw2 *. have := pow2_ge_0 (y i.+1). rewrite /=. move: (winsor_var _ _ _ _ _) IH (y i.+1) => e He u Hu. nra.
Qed.
Lemma lx_std_nz j i : (j < 2)%N -> (i < 3)%N ->
  let y := centred false 2 ex_x in let v := fun j s => sqrt (winsor_var 2 1 None (y j) s) in
  let z := fun j s => standardised None (y j (0 + s)%N) (v j (0 + s)%N) in centred false 5 z j i <> IZR 0.
Proof.
  move=> Hj Hi y v z. rewrite /centred /z add0n /standardised /xdiv. have Hp : (0 < v j i)%re.
    apply: sqrt_lt_R0. apply: lx_winsor. exact: lx_nz.
  case: Req_EM_T => [E|_]; first by rewrite E in Hp; lra. rewrite /xval. have Hy : y j i <> IZR 0 by apply: lx_nz.
  move=> E. apply: Hy. have : (y j i / v j i * v j i = 0)%re by rewrite E; ring. move=> <-. field. lra.
Qed.

Lemma lx_run : let g := low_rank_iterated_ewma (n := 2) (@eigsh_exact 2 1) lx_P lx_f in g.2 = None /\ size g.1 = 3%N /\
  forall it, List.In it g.1 -> l_cov it <> None.
Proof.
  move=> g. have Hc : g.2 = None.
    apply: (complete lx_settings lx_valid lx_ret lx_moved lx_len) => //; first by apply: eigsh_exact_total.
    move=> j i Hj /andP [_ Hi]. exact: lx_std_nz.
  split=> //. have Hok := @eigsh_exact_ok 2 1.
  have [outs [HO [_ [Hsz Hit]]]] := agrees_main lx_settings lx_valid lx_ret lx_moved lx_len Hok.
  have Hs : size outs = 3%N by rewrite (outs_size lx_settings lx_valid lx_ret lx_moved lx_len HO).
  split; first by rewrite -Hs; exact: Hsz.
  move=> it Hin0. have [p Hp] := List.In_nth_error _ _ Hin0. have [o [Ho [_ [_ [_]]]]] := Hit p it Hp. move=> H Hn. move: H. rewrite Hn. case=> i.
  have Hin := List.nth_error_In _ _ Ho.
  have Hx : returns_are (nan_to_num lx_P) lx_f ex_x by exact: lx_ret.
  have Hplt : (p < 3)%N by rewrite -Hs -len_size; apply/ltP; apply/List.nth_error_Some; rewrite Ho.
  have Ht : itime o = List.nth p (findex lx_f) Z0.
    have := outs_nth lx_settings lx_valid lx_ret lx_moved lx_len HO (p := p). rewrite Ho => /(_ Hplt) [->].
    exact: (item_time lx_P lx_f ex_x 2 3 2 5 None lx_settings lx_valid lx_moved lx_len p (ltP Hplt)).
  have Hex : exists j s, (j < length (fcols lx_f))%coq_nat /\ (s <= first_pos (min_periods_vola lx_P))%coq_nat /\ centred (use_mean lx_P) 2 ex_x j s <> IZR 0.
    by exists 0%N, 0%N; split; [apply/ltP|split=> //; exact: lx_nz].
  have [_ [_ Hcv]] := items_closed lx_P lx_f ex_x 2 3 2 5 None lx_settings lx_valid Hx outs o p Hex HO Hin (ltP Hplt) Ht i (ltP (ltn_ord i)).
  have Hb := decay_bounds 3 ltac:(lra).
  have Hcc (z : nat -> R) : z 0%N <> IZR 0 -> ewavg (decay 3) (fun s => z s * z s)%re (p - 0) <> IZR 0.
    move=> Hz H. have H2 : forall s, (s <= p - 0)%coq_nat -> (0 <= (fun s => z s * z s) s)%re by move=> s _ /=; nra.
    have := proj1 (ewavg_zero_iff _ Hb (fun s => z s * z s)%re (p - 0) H2) H 0%N ltac:(lia). move=> /=. nra.
  have Hz0 := @lx_std_nz i 0 (ltn_ord i) isT.
  have [Hc1 _] := Hcv i (ltP (ltn_ord i)). rewrite Hc1 //; exact: (Hcc _ Hz0).
Qed.
