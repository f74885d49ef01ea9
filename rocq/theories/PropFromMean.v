(** * C121, C122 with mean = True: a condition on the returns instead of the covariances. *)
From Coq Require Import Reals Lra ZArith String List Lia.
Set Warnings "-notation-overridden,-ambiguous-paths".
From mathcomp Require Import all_ssreflect all_algebra.
From Verif Require Import RStruct MatR Spec Num Py Ewma SpecEwma Combination SpecComb FromEwmas SpecFrom RealLA SpecCombR CombEx SpecRank SpecRankR SpecMove SpecFromR SpecCross FromUnits FromFiniteMean FromExRun FromEx DemoExRun DemoExR PropFromR.
Import ListNotations.
Local Open Scope coq_nat_scope.
Delimit Scope Z_scope with z.

(** C121 with mean = True: the condition on the covariances holds if, for the volatility half-life of every expert, every asset has
    a return above and a return below its moving average between the end of the volatility warm-up and the first forecast. *)
Theorem C121_mean : forall (label : option xr * option xr -> string) (returns : frame (N := XR) time) x pairs mpv mpc clip_at rc K,
  let n := List.length (fcols returns) in let LA := RLA n K in
  List.length (firsts (List.map label pairs)) = K ->
  forall (to_mat : frame (N := XR) string -> 'M[R]_n) (to_vec : list xr -> 'cV[R]_n),
  reads_matrix n to_mat -> valid_returns returns -> returns_are false returns x -> positive_halflives pairs -> clip_is clip_at rc ->
  Nat.max 1 mpv <= List.length (findex returns) -> moved true x n (first_pos mpv) ->
  (forall p h, List.In p pairs -> fst p = Some (Fin h) -> crosses h x n mpv mpc) ->
  forall (c : comb LA) slv window items, returns_feasible slv ->
  from_ewmas (N := XR) LA label to_mat to_vec returns pairs mpv mpc clip_at true = Ok c -> solve LA slv c window None = (items, None) ->
  let fp := first_pos mpv + first_pos mpc in let T := List.length (findex returns) - fp in let w := eff T window in
  2 <= T /\ List.length items = T - w /\
  forall j r, List.nth_error items j = Some (Some r) ->
    r_time LA r = List.nth (fp + w + j) (findex returns) Z0 /\ spd (r_cov LA r : 'M[R]_n) /\ feasible K (r_weights LA r).
Proof.
  intros label returns x pairs mpv mpc clip_at rc K n LA HK to_mat to_vec H1 H2 H3 H4 H5 H6 H7 H8 c slv window items H9 H10 H11.
  exact (C121_schedule label returns x pairs mpv mpc clip_at rc true K HK to_mat to_vec H1 H2 H3 H4 H5 H6 H7
    (fun p outs o A B C => proj1 (finite_items_mean returns x pairs mpv mpc clip_at rc H2 (Hx' H3) H4 H5 H8 p outs o A B C)) c slv window items H9 H10 H11).
Qed.
Print Assumptions C121_mean.
Theorem C122_mean : forall (label : option xr * option xr -> string) (returns : frame (N := XR) time) x pairs mpv mpc clip_at rc K,
  let n := List.length (fcols returns) in let LA := RLA n K in
  List.length (firsts (List.map label pairs)) = K ->
  forall (to_mat : frame (N := XR) string -> 'M[R]_n) (to_vec : list xr -> 'cV[R]_n),
  reads_matrix n to_mat -> valid_returns returns -> returns_are false returns x -> positive_halflives pairs -> clip_is clip_at rc ->
  forall (s : nat -> R) (scaled : frame (N := XR) time), (forall j, Rlt 0 (s j)) -> rescaled s returns scaled -> reads_vector n to_vec ->
  (forall p h, List.In p pairs -> fst p = Some (Fin h) -> crosses h x n mpv mpc) ->
  forall (c : comb LA) slv slv' window times items, returns_optimal slv -> returns_optimal slv' ->
  from_ewmas (N := XR) LA label to_mat to_vec returns pairs mpv mpc clip_at true = Ok c -> solve LA slv c window times = (items, None) ->
  exists c' items', from_ewmas (N := XR) LA label to_mat to_vec scaled pairs mpv mpc clip_at true = Ok c' /\
    solve LA slv' c' window times = (items', None) /\ List.length items = List.length items' /\
    forall j r r', List.nth_error items j = Some (Some r) -> List.nth_error items' j = Some (Some r') ->
      r_time LA r = r_time LA r' /\ r_weights LA r' = r_weights LA r /\
      (forall i : 'I_n, (r_mean LA r' : 'cV[R]_n) i ord0 = Rmult (s i) ((r_mean LA r : 'cV[R]_n) i ord0)) /\
      (forall i k : 'I_n, (r_cov LA r' : 'M[R]_n) i k = Rmult (Rmult (s i) (s k)) ((r_cov LA r : 'M[R]_n) i k)).
Proof.
  intros label returns x pairs mpv mpc clip_at rc K n LA HK to_mat to_vec H1 H2 H3 H4 H5 s g H6 H7 H8 H9 c slv slv' window times items H10 H11 H12 H13.
  exact (C122_units label returns x pairs mpv mpc clip_at rc true K HK to_mat to_vec H1 H2 H3 H4 H5 s g H6 H7 H8
    (finite_items_mean returns x pairs mpv mpc clip_at rc H2 (Hx' H3) H4 H5 H9) c slv slv' window times items H10 H11 H12 H13).
Qed.
Print Assumptions C122_mean.

(** Returns 0, 1, -1/2, 8, 100 of one asset, one expert, warm-ups of 2 and 2 days, clipping at 1, mean = True, window 1. *)
Notation dm_comb_of f := (from_ewmas (N := XR) (RLA 1 1) dm_label (@fr_mat 1) (@fr_vec 1) f dm_pairs 2 2 (Some (Fin 1)) true).
Example C121_mean_case : exists c r5 r6, dm_comb_of dm_f = Ok c /\ solve (RLA 1 1) (@best 1 1) c (Some 1) None = ([Some r5; Some r6], None) /\
  r_time (RLA 1 1) r5 = 5%z /\ r_time (RLA 1 1) r6 = 6%z /\ spd (r_cov (RLA 1 1) r5 : 'M[R]_1) /\ feasible 1 (r_weights (RLA 1 1) r6).
Proof.
  destruct dm_run as (c & r5 & r6 & Hc & Hs). exists c, r5, r6. split; [exact Hc|]. split; [exact Hs|].
  destruct (C121_mean dm_label dm_f dm_x dm_pairs 2 2 (Some (Fin 1)) (Some (IZR 1)) 1 Logic.eq_refl (@fr_mat 1) (@fr_vec 1) (@fr_reads 1) dm_valid (dm_returns false) dm_positive
    dm_clip ltac:(cbn; lia) dm_moved dm_all c (@best 1 1) _ _ (fun h p w Hw => proj1 (@best_opt 1 1 h p w Hw)) Hc Hs) as (_ & _ & H).
  destruct (H 0 r5 Logic.eq_refl) as (T3 & S3 & _). destruct (H 1 r6 Logic.eq_refl) as (T4 & _ & F4).
  split; [exact T3|]. split; [exact T4|]. split; [exact S3|exact F4].
Qed.
Definition dm_percent : frame (N := XR) time := mkFrame [2;3;4;5;6]%z ["A"]%string [[Fin 0]; [Fin 100]; [Fin (-50)]; [Fin 800]; [Fin 10000]].
Lemma dm_percent_of : rescaled (fun _ => IZR 100) dm_f dm_percent.
Proof.
  split; [reflexivity|]. split; [reflexivity|]. split; [split; [reflexivity|repeat constructor]|].
  intros k j Hk Hj. cbn in Hk, Hj. destruct j; [|lia]. unfold times. do 5 (destruct k as [|k]; [cbn; f_equal; lra|]). lia.
Qed.
Example C122_mean_case : exists c c' r5 r6 items', dm_comb_of dm_f = Ok c /\ dm_comb_of dm_percent = Ok c' /\
  solve (RLA 1 1) (@best 1 1) c (Some 1) None = ([Some r5; Some r6], None) /\ solve (RLA 1 1) (@best 1 1) c' (Some 1) None = (items', None) /\
  List.length items' = 2 /\ forall r', List.nth_error items' 0 = Some (Some r') ->
  (r_mean (RLA 1 1) r' : 'cV[R]_1) ord0 ord0 = Rmult (IZR 100) ((r_mean (RLA 1 1) r5 : 'cV[R]_1) ord0 ord0).
Proof.
  destruct dm_run as (c & r5 & r6 & Hc & Hs).
  destruct (C122_mean dm_label dm_f dm_x dm_pairs 2 2 (Some (Fin 1)) (Some (IZR 1)) 1 Logic.eq_refl (@fr_mat 1) (@fr_vec 1) (@fr_reads 1) dm_valid (dm_returns false) dm_positive
    dm_clip (fun _ => IZR 100) dm_percent ltac:(intros; lra) dm_percent_of (@fr_readsv 1) dm_all
    c (@best 1 1) (@best 1 1) _ _ _ (@best_opt 1 1) (@best_opt 1 1) Hc Hs) as (c' & items' & E1 & E2 & E3 & E4).
  exists c, c', r5, r6, items'. split; [exact Hc|]. split; [exact E1|]. split; [exact Hs|]. split; [exact E2|]. split; [symmetry; exact E3|].
  intros r' Hr'. destruct (E4 0 r5 r' Logic.eq_refl Hr') as (_ & _ & Hm & _). exact (Hm ord0).
Qed.
