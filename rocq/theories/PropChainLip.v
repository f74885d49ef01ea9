(** * From returns to minimum-risk weights (C146), in exact arithmetic.

    Models: Ewma.v, FromEwmas.v, Combination.v (from_ewmas(...).solve(...)), Trader.v (min_risk; by C69 the weights of a day are
    the portfolio of least volatility within the limits).  Vocabulary: SpecCont.v, SpecFromR.v, SpecTrader.v. *)
From Coq Require Import Reals Lra ZArith String List Lia.
Set Warnings "-notation-overridden,-ambiguous-paths".
From mathcomp Require Import all_ssreflect all_algebra.
From Verif Require Import RStruct MatR Trader SpecTrader Spec Num Py Ewma SpecEwma Combination SpecComb FromEwmas SpecFrom RealLA SpecCombR CombEx SpecRank SpecRankR SpecFromR SpecCont SpecStable FromExRun FromEx PropCont ChainLip.
Import ListNotations.
Local Open Scope coq_nat_scope.
Delimit Scope R_scope with re.
Delimit Scope Z_scope with z.

(** C146: if every asset moves in both warm-ups then, however small eps, any returns for the same dates and assets that are
    close enough to the given ones give the same number of Results, and on every day the minimum-risk weights under the limits l
    (with a short limit) computed from the two combined covariances agree up to eps. *)
Theorem C146_returns_to_weights : forall (label : option xr * option xr -> string) (returns : frame (N := XR) time) x pairs mpv mpc K,
  let n := List.length (fcols returns) in let T := List.length (findex returns) in let LA := RLA n K in
  List.length (firsts (List.map label pairs)) = K ->
  forall (to_mat : frame (N := XR) string -> 'M[R]_n) (to_vec : list xr -> 'cV[R]_n),
  reads_matrix n to_mat -> reads_vector n to_vec -> valid_returns returns -> returns_are false returns x -> positive_halflives pairs ->
  first_pos mpv + first_pos mpc < T -> moving x n mpv mpc ->
  forall (c : comb LA) slv window items l L eps, returns_optimal slv ->
  from_ewmas (N := XR) LA label to_mat to_vec returns pairs mpv mpc None false = Ok c -> solve LA slv c window None = (items, None) ->
  short_lim l = Some L -> (0 < eps)%re ->
  exists e, (0 < e)%re /\ forall (returns' : frame (N := XR) time) y,
    valid_returns returns' -> findex returns' = findex returns -> fcols returns' = fcols returns -> returns_are false returns' y ->
    returns_near e n T x y ->
    exists c', from_ewmas (N := XR) LA label to_mat to_vec returns' pairs mpv mpc None false = Ok c' /\
    forall slv', returns_optimal slv' -> exists items', solve LA slv' c' window None = (items', None) /\
      List.length items' = List.length items /\
      forall j r r' (w v : 'cV[R]_n), List.nth_error items j = Some (Some r) -> List.nth_error items' j = Some (Some r') ->
        minimiser (vol (r_cov LA r : 'M[R]_n)) (portfolio l) w -> minimiser (vol (r_cov LA r' : 'M[R]_n)) (portfolio l) v ->
        forall i, (Rabs (v i ord0 - w i ord0) <= eps)%re.
Proof.
  intros label returns x pairs mpv mpc K n T LA HK to_mat to_vec H1 H2 H3 H4 H5 H6 H7 c slv window items l L eps H8 H9 H10 H11 H12.
  exact (@chain label returns x pairs mpv mpc K HK to_mat to_vec H1 H2 H3 H4 H5 H6 H7 c slv window items l L eps H8 H9 H10 H11 H12).
Qed.
Print Assumptions C146_returns_to_weights.

(** One asset with returns 1, 2, 4, 8, half-lives 1 and 1/2, a window of 2; sum |w| <= 3/2: the hypotheses are met. *)
Example C146_case : exists c r3 r4 e,
  from_ewmas (N := XR) (RLA 1 2) fr_label (@fr_mat 1) (@fr_vec 1) fr_f fr_pairs 1 1 None false = Ok c /\
  solve (RLA 1 2) (@best 1 2) c (Some 2) None = ([Some r3; Some r4], None) /\ (0 < e)%re /\
  exists c', from_ewmas (N := XR) (RLA 1 2) fr_label (@fr_mat 1) (@fr_vec 1) (ct_f e) fr_pairs 1 1 None false = Ok c' /\
  exists items', solve (RLA 1 2) (@best 1 2) c' (Some 2) None = (items', None) /\ List.length items' = 2.
Proof.
  destruct fr_run as (c & r3 & r4 & Hc & Hs).
  assert (Hm : moving fr_x 1 1 1).
  { intros j Hj. assert (fr_x j 0 <> 0%re) by (unfold fr_x; simpl; lra). split; exists 0; (split; [unfold first_pos; simpl; lia|assumption]). }
  assert (Hd : (0 < / 100)%re) by lra. assert (HT : first_pos 1 + first_pos 1 < 4) by (unfold first_pos; simpl; lia).
  destruct (C146_returns_to_weights fr_label fr_f fr_x fr_pairs 1 1 2 fr_K (@fr_mat 1) (@fr_vec 1) (@fr_reads 1) (@fr_readsv 1) fr_valid (fr_returns false) fr_positive
    HT Hm c (@best 1 2) (Some 2) _ (mkLimits (Some (3 / 2)%re) None None) (3 / 2)%re _ (@best_opt 1 2) Hc Hs Logic.eq_refl Hd) as (e & He & H).
  exists c, r3, r4, e. split; [exact Hc|]. split; [exact Hs|]. split; [exact He|].
  assert (V : valid_returns (ct_f e)). { split; [split; [reflexivity|repeat constructor]|]. split; [simpl; lia|discriminate]. }
  assert (Y : returns_are false (ct_f e) (ct_x e)).
  { intros k j Hk Hj. simpl in Hk, Hj. left. destruct j; [|lia]. do 4 (destruct k as [|k]; [reflexivity|]). lia. }
  destruct (H (ct_f e) (ct_x e) V Logic.eq_refl Logic.eq_refl Y) as (c' & Hc' & G).
  { intros j k Hj Hk. unfold fr_x, ct_x. do 4 (destruct k as [|k]; [cbn [List.nth]; apply Rabs_le; lra|]). simpl in Hk. lia. }
  exists c'. split; [exact Hc'|]. destruct (G (@best 1 2) (@best_opt 1 2)) as (items' & E & L & P). exists items'. split; [exact E|exact L].
Qed.
