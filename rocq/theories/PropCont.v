(** * from_ewmas(...).solve(...) is continuous in the returns (C144), in exact arithmetic.

    Models: Ewma.v, FromEwmas.v, Combination.v.  Vocabulary: SpecCont.v ([moving], [returns_near]), SpecStable.v
    ([results_near]), SpecEwma.v, SpecFrom.v, SpecFromR.v. *)
From Coq Require Import Reals Lra ZArith String List Lia.
Set Warnings "-notation-overridden,-ambiguous-paths".
From mathcomp Require Import all_ssreflect all_algebra.
From Verif Require Import RStruct MatR Spec Num Py Ewma SpecEwma Combination SpecComb FromEwmas SpecFrom RealLA SpecCombR CombEx SpecRank SpecRankR SpecFromR SpecCont SpecStable FromExRun FromEx FromCont1 FromCont FromJump.
Import ListNotations.
Local Open Scope coq_nat_scope.
Delimit Scope R_scope with re.
Delimit Scope Z_scope with z.

(** C144: if every asset moves in both warm-ups, then however small d, any returns for the same dates and assets that are
    close enough to the given ones are processed without error and give the same run up to d. *)
Theorem C144_continuous : forall (label : option xr * option xr -> string) (returns : frame (N := XR) time) x pairs mpv mpc K,
  let n := List.length (fcols returns) in let T := List.length (findex returns) in let LA := RLA n K in
  List.length (firsts (List.map label pairs)) = K ->
  forall (to_mat : frame (N := XR) string -> 'M[R]_n) (to_vec : list xr -> 'cV[R]_n),
  reads_matrix n to_mat -> reads_vector n to_vec -> valid_returns returns -> returns_are false returns x -> positive_halflives pairs ->
  first_pos mpv + first_pos mpc < T -> moving x n mpv mpc ->
  forall (c : comb LA) slv window times items d, (0 < d)%re -> returns_optimal slv ->
  from_ewmas (N := XR) LA label to_mat to_vec returns pairs mpv mpc None false = Ok c -> solve LA slv c window times = (items, None) ->
  exists e, (0 < e)%re /\ forall (returns' : frame (N := XR) time) y,
    valid_returns returns' -> findex returns' = findex returns -> fcols returns' = fcols returns -> returns_are false returns' y ->
    returns_near e n T x y ->
    exists c', from_ewmas (N := XR) LA label to_mat to_vec returns' pairs mpv mpc None false = Ok c' /\
    forall slv', returns_optimal slv' -> exists items', solve LA slv' c' window times = (items', None) /\
      List.length items' = List.length items /\
      forall j r r', List.nth_error items j = Some (Some r) -> List.nth_error items' j = Some (Some r') -> results_near d r r'.
Proof.
  intros label returns x pairs mpv mpc K n T LA HK to_mat to_vec H1 H2 H3 H4 H5 H6 H7 c slv window times items d H8 H9 H10 H11.
  destruct (@run_cont label returns x pairs mpv mpc K HK to_mat to_vec H1 H2 H3 H4 H5 H6 H7 c slv window times items d H8 H9 H10 H11) as (e & E & H).
  exists e. split; [exact E|]. intros g y G1 G2 G3 G4 G5. exact (H g y (conj G1 (conj G2 (conj G3 G4))) G5).
Qed.
Print Assumptions C144_continuous.

(** The condition on the warm-ups cannot be dropped: one asset with returns e, 1, any half-life: forecasts for both days for
    every e <> 0, however small, but only for the second day for e = 0. *)
Theorem C144_jump_at_zero : forall h, (0 < h)%re ->
  (exists outs, iterated_ewma (fr_P h) (jp_f 0%re) = Ok outs /\ List.map (@itime XR) outs = [2]%z) /\
  forall e, e <> 0%re -> exists outs, iterated_ewma (fr_P h) (jp_f e) = Ok outs /\ List.map (@itime XR) outs = [1;2]%z.
Proof. exact jump. Qed.
Print Assumptions C144_jump_at_zero.

(** One asset with returns 1, 2, 4, 8, half-lives 1 and 1/2, a window of 2: two results; the first return moved by e. *)
Definition ct_x (e : R) (j k : nat) : R := List.nth k [Rplus 1 e; 2; 4; 8]%re 0%re.
Definition ct_f (e : R) : frame (N := XR) time := mkFrame (N := XR) [1;2;3;4]%z ["A"]%string [[Fin (Rplus 1 e)]; [Fin 2]; [Fin 4]; [Fin 8]]%re.
Example C144_case : exists c r3 r4 e,
  from_ewmas (N := XR) (RLA 1 2) fr_label (@fr_mat 1) (@fr_vec 1) fr_f fr_pairs 1 1 None false = Ok c /\
  solve (RLA 1 2) (@best 1 2) c (Some 2) None = ([Some r3; Some r4], None) /\ (0 < e)%re /\
  exists c', from_ewmas (N := XR) (RLA 1 2) fr_label (@fr_mat 1) (@fr_vec 1) (ct_f e) fr_pairs 1 1 None false = Ok c' /\
  exists items', solve (RLA 1 2) (@best 1 2) c' (Some 2) None = (items', None) /\ List.length items' = 2 /\
    forall r', List.nth_error items' 1 = Some (Some r') -> results_near (/ 100)%re r4 r'.
Proof.
  destruct fr_run as (c & r3 & r4 & Hc & Hs).
  assert (Hm : moving fr_x 1 1 1).
  { intros j Hj. assert (fr_x j 0 <> 0%re) by (unfold fr_x; simpl; lra). split; exists 0; (split; [unfold first_pos; simpl; lia|assumption]). }
  assert (Hd : (0 < / 100)%re) by lra. assert (HT : first_pos 1 + first_pos 1 < 4) by (unfold first_pos; simpl; lia).
  destruct (C144_continuous fr_label fr_f fr_x fr_pairs 1 1 2 fr_K (@fr_mat 1) (@fr_vec 1) (@fr_reads 1) (@fr_readsv 1) fr_valid (fr_returns false) fr_positive
    HT Hm c (@best 1 2) (Some 2) None _ _ Hd (@best_opt 1 2) Hc Hs) as (e & He & H).
  exists c, r3, r4, e. split; [exact Hc|]. split; [exact Hs|]. split; [exact He|].
  assert (V : valid_returns (ct_f e)). { split; [split; [reflexivity|repeat constructor]|]. split; [simpl; lia|discriminate]. }
  assert (Y : returns_are false (ct_f e) (ct_x e)).
  { intros k j Hk Hj. simpl in Hk, Hj. left. destruct j; [|lia]. do 4 (destruct k as [|k]; [reflexivity|]). lia. }
  destruct (H (ct_f e) (ct_x e) V Logic.eq_refl Logic.eq_refl Y) as (c' & Hc' & G).
  { intros j k Hj Hk. unfold fr_x, ct_x. do 4 (destruct k as [|k]; [cbn [List.nth]; apply Rabs_le; lra|]). simpl in Hk. lia. }
  exists c'. split; [exact Hc'|]. destruct (G (@best 1 2) (@best_opt 1 2)) as (items' & E & L & P). exists items'. split; [exact E|]. split; [exact L|].
  intros r' Hr'. exact (P 1 r4 r' Logic.eq_refl Hr').
Qed.
