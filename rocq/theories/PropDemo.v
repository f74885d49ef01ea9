(** * C127, C128: the demo in exact arithmetic (C126: PropDemoRun.v). *)
From Coq Require Import Reals Lra ZArith String List Lia.
Set Warnings "-notation-overridden,-ambiguous-paths".
From mathcomp Require Import all_ssreflect all_algebra.
From Verif Require Import RStruct MatR Spec Num Py Ewma EwmaPrefix SpecEwma Combination SpecComb FromEwmas SpecFrom RealLA SpecCombR CombEx SpecRank SpecRankR SpecFromR SpecCross SpecDemo FromExRun FromEx FromFiniteMean Demo DemoRun DemoUnits DemoFin DemoReal DemoExRun DemoExR PropDemoRun.
Import ListNotations.
Local Open Scope coq_nat_scope.
Delimit Scope Z_scope with z.

(** * C127: what of the prices the table depends on. *)
(** The units of the prices: multiply the prices of asset j by s j > 0 (cents instead of dollars, prices restated after a split);
    the run is the same -- same table, same exception -- for every linear algebra and every solver. *)
Theorem C127_price_units : forall (LA : LinAlg) (label : option xr * option xr -> string)
  (to_mat : frame (N := XR) string -> l_mat LA) (to_vec : list xr -> l_vec LA) slv pad names (prices restated : frame (N := XR) time) (s : nat -> R)
  pairs mpv mpc clip_at window,
  wf_frame prices -> (forall j, Rlt 0 (s j)) -> rescaled s prices restated ->
  demo (N := XR) LA label to_mat to_vec slv pad names restated pairs mpv mpc clip_at window =
  demo (N := XR) LA label to_mat to_vec slv pad names prices pairs mpv mpc clip_at window.
Proof. intros. unfold demo, demo_returns. rewrite (pct_units s H0 pad prices restated H H1). reflexivity. Qed.
Print Assumptions C127_price_units.
(** With the default fill mode a missing price counts as the last known price. *)
Theorem C127_gaps : forall (LA : LinAlg) (label : option xr * option xr -> string)
  (to_mat : frame (N := XR) string -> l_mat LA) (to_vec : list xr -> l_vec LA) slv names (prices closed : frame (N := XR) time)
  pairs mpv mpc clip_at window,
  wf_frame prices -> gaps_closed prices closed ->
  demo (N := XR) LA label to_mat to_vec slv true names prices pairs mpv mpc clip_at window =
  demo (N := XR) LA label to_mat to_vec slv true names closed pairs mpv mpc clip_at window.
Proof. intros. unfold demo, demo_returns. rewrite (pct_gaps prices closed H H0). reflexivity. Qed.
Print Assumptions C127_gaps.
(** The returns: with positive prices and no gaps, the chosen assets' relative changes, dated by the later of the two rows. *)
Theorem C127_returns : forall pad names (prices : frame (N := XR) time) P q,
  wf_frame prices -> increasing (findex prices) -> prices_are prices P -> List.NoDup (fcols prices) -> columns_of names (fcols prices) q -> names <> [] ->
  exists returns, demo_returns pad names prices = Ok returns /\ findex returns = List.tl (findex prices) /\ fcols returns = names /\
    valid_returns returns /\ returns_are false returns (fun i => relative P (q i)).
Proof. exact returns_of_prices. Qed.
Print Assumptions C127_returns.

(** * C128: the dates of the table. *)
(** T = forecasts of each expert.  If the demo returns, T >= 2, the rows of the table are the dates of the prices after the first
    one, the two warm-ups and the window, and every row is a vector of non-negative weights with sum one, one per expert. *)
Theorem C128_dates : forall (label : option xr * option xr -> string) pad (prices : frame (N := XR) time) P names q pairs mpv mpc clip_at rc K
  (to_mat : frame (N := XR) string -> 'M[R]_(List.length names)) (to_vec : list xr -> 'cV[R]_(List.length names)),
  let n := List.length names in let LA := RLA n K in
  List.length (firsts (List.map label pairs)) = K -> reads_matrix n to_mat ->
  wf_frame prices -> increasing (findex prices) -> prices_are prices P -> List.NoDup (fcols prices) -> columns_of names (fcols prices) q -> names <> nil ->
  positive_halflives pairs -> clip_is clip_at rc -> Nat.max 1 mpv < List.length (findex prices) ->
  let x := fun i => relative P (q i) in moved true x n (first_pos mpv) ->
  (forall p h, List.In p pairs -> fst p = Some (Fin h) -> crosses h x n mpv mpc) ->
  forall slv window table, returns_feasible slv ->
  demo (N := XR) LA label to_mat to_vec slv pad names prices pairs mpv mpc clip_at window = Ok table ->
  let fp := first_pos mpv + first_pos mpc in let T := List.length (findex prices) - 1 - fp in let w := eff T window in
  2 <= T /\ List.map fst table = List.skipn (1 + fp + w) (findex prices) /\ forall tw, List.In tw table -> feasible K (snd tw).
Proof. intros. eapply demo_dates; eauto. Qed.
Print Assumptions C128_dates.

(** One asset with prices 1, 1, 2, 1, 9, 909 (returns 0, 1, -1/2, 8, 100), one expert, warm-ups of 2 and 2 days, clipping at 1, window 1. *)
Notation dm_demo f := (demo (N := XR) (RLA 1 1) dm_label (@fr_mat 1) (@fr_vec 1) (@best 1 1) true ["A"%string] f dm_pairs 2 2 (Some (Fin 1)) (Some 1)).
Lemma dm_case : exists w5 w6, dm_demo dm_prices = Ok [(5%z, w5); (6%z, w6)] /\ feasible 1 w5 /\ feasible 1 w6.
Proof.
  destruct dm_table as (r5 & r6 & E). destruct (C128_dates dm_label true dm_prices dm_p ["A"]%string (fun i => i) dm_pairs 2 2 (Some (Fin 1)) (Some (IZR 1)) 1 (@fr_mat 1) (@fr_vec 1) Logic.eq_refl (@fr_reads 1)
    dm_wf dm_inc dm_are dm_nodup dm_cols ltac:(discriminate) dm_positive dm_clip ltac:(cbn; lia) dm_moved' dm_all' (@best 1 1) (Some 1) _ (fun h p w Hw => proj1 (@best_opt 1 1 h p w Hw)) E) as (_ & H1 & H2).
  revert E H1 H2. generalize (dict_of Z.eqb [(r_time (RLA 1 1) r5, r_weights (RLA 1 1) r5); (r_time (RLA 1 1) r6, r_weights (RLA 1 1) r6)]).
  intros table E H1 H2. destruct table as [|[t5 w5] [|[t6 w6] [|]]]; try discriminate. injection H1 as -> ->. exists w5, w6. split; [exact E|].
  split; [exact (H2 (5%z, w5) (or_introl Logic.eq_refl))|exact (H2 (6%z, w6) (or_intror (or_introl Logic.eq_refl)))].
Qed.
Example C126_case : exists w5 w6, dm_demo dm_prices = Ok [(5%z, w5); (6%z, w6)] /\ dm_demo (frame_take 5 dm_prices) = Ok [(5%z, w5)].
Proof.
  destruct dm_case as (w5 & w6 & E & _). exists w5, w6. split; [exact E|].
  destruct (C126_no_look_ahead XR (RLA 1 1) dm_label (@fr_mat 1) (@fr_vec 1) dm_pairs 2 2 (Some (Fin 1)) (@best 1 1) true ["A"]%string dm_prices 5 1 _
    Logic.eq_refl dm_inj (proj1 dm_wf) dm_inc E) as (g & Eg & H). pose proof (dm_frame true 5 g (or_introl Logic.eq_refl) Eg) as ->.
  destruct (from_ewmas _ _ _ _ _ _ _ _ _ _) as [c|e] eqn:Ec.
  - destruct dm_takes as (outs & Eo & Lo). destruct (H (fr_pair 1) outs (or_introl Logic.eq_refl) Eo ltac:(rewrite Lo; lia)) as (t & more & E1 & E2 & E3 & _).
    rewrite Lo in E3. destruct t as [|a [|]]; try discriminate. injection E2 as <- _. exact E1.
  - destruct H as [_ H]. inversion H as [|? ? H1 _]; subst. cbn in H1. lia.
Qed.
Definition dm_cents : frame (N := XR) time := mkFrame [1;2;3;4;5;6]%z ["A"]%string [[Fin 100]; [Fin 100]; [Fin 200]; [Fin 100]; [Fin 900]; [Fin 90900]].
Definition dm_gap : frame (N := XR) time := mkFrame [1;2;3;4;5;6]%z ["A"]%string [[Fin 1]; [NaN]; [Fin 2]; [Fin 1]; [Fin 9]; [Fin 909]].
Lemma dm_gap_wf : wf_frame dm_gap. Proof. split; [reflexivity|repeat constructor]. Qed.
Lemma dm_closed : gaps_closed dm_gap dm_prices.
Proof.
  split; [reflexivity|]. split; [reflexivity|]. split; [exact dm_wf|]. intros k j Hk Hj. cbn in Hk, Hj. destruct j; [|lia].
  do 6 (destruct k as [|k]; [reflexivity|]). lia.
Qed.
Lemma dm_rescaled : rescaled (fun _ => IZR 100) dm_prices dm_cents.
Proof.
  split; [reflexivity|]. split; [reflexivity|]. split; [split; [reflexivity|repeat constructor]|].
  intros k j Hk Hj. cbn in Hk, Hj. destruct j; [|lia]. unfold times. do 6 (destruct k as [|k]; [cbn; f_equal; lra|]). lia.
Qed.
Example C127_case : exists w5 w6, dm_demo dm_prices = Ok [(5%z, w5); (6%z, w6)] /\ dm_demo dm_cents = Ok [(5%z, w5); (6%z, w6)] /\ dm_demo dm_gap = Ok [(5%z, w5); (6%z, w6)].
Proof.
  destruct dm_case as (w5 & w6 & E & _). exists w5, w6. split; [exact E|]. split.
  - rewrite (C127_price_units (RLA 1 1) dm_label (@fr_mat 1) (@fr_vec 1) (@best 1 1) true ["A"]%string dm_prices dm_cents (fun _ => IZR 100) dm_pairs 2 2 (Some (Fin 1)) (Some 1) dm_wf ltac:(intros; lra) dm_rescaled). exact E.
  - rewrite (C127_gaps (RLA 1 1) dm_label (@fr_mat 1) (@fr_vec 1) (@best 1 1) ["A"]%string dm_gap dm_prices dm_pairs 2 2 (Some (Fin 1)) (Some 1) dm_gap_wf dm_closed). exact E.
Qed.
