(** * From returns to minimum-risk weights: continuity of the whole chain (C146). *)
From Coq Require Import Reals Lra ZArith String List Lia.
Set Warnings "-notation-overridden,-ambiguous-paths".
From mathcomp Require Import all_ssreflect all_algebra.
From Verif Require Import RStruct MatR Trader SpecTrader TraderOpt TraderLip Spec Num Py Ewma SpecEwma Combination SpecComb FromEwmas SpecFrom RealLA SpecCombR SpecRank SpecRankR SpecFromR SpecActive SpecCont SpecStable PropFromR PropCont.
Set Implicit Arguments.
Unset Strict Implicit.
Unset Printing Implicit Defensive.
Import GRing.Theory.
Local Open Scope ring_scope.
Delimit Scope R_scope with re.

(** Histories that move stay so if they are changed by little. *)
Lemma moving_open x n mpv mpc T : (first_pos mpv + first_pos mpc < T)%coq_nat -> moving x n mpv mpc ->
  exists e, (0 < e)%re /\ forall y, returns_near e n T x y -> moving y n mpv mpc.
Proof.
  move=> HT. elim: n => [|n IH] Hm; first by exists 1%re; split; [lra|move=> y _ j Hj; lia].
  have [|e [He H]] := IH; first by move=> j Hj; apply: Hm; lia.
  have [[s1 [A1 B1]] [s2 [A2 B2]]] := Hm n ltac:(lia).
  have P1 := Rabs_pos_lt _ B1. have P2 := Rabs_pos_lt _ B2.
  exists (Rmin e (Rmin (Rabs (x n s1) / 2) (Rabs (x n s2) / 2)))%re. split; first by repeat apply: Rmin_glb_lt => //; lra.
  move=> y Hy.
  have K s : (s <= first_pos mpv + first_pos mpc)%coq_nat -> (Rabs (x n s - y n s) <= Rmin e (Rmin (Rabs (x n s1) / 2) (Rabs (x n s2) / 2)))%re by move=> Hs; apply: Hy; lia.
  have M1 := Rmin_r e (Rmin (Rabs (x n s1) / 2) (Rabs (x n s2) / 2)). have M2 := Rmin_l (Rabs (x n s1) / 2) (Rabs (x n s2) / 2). have M3 := Rmin_r (Rabs (x n s1) / 2) (Rabs (x n s2) / 2).
  have M0 := Rmin_l e (Rmin (Rabs (x n s1) / 2) (Rabs (x n s2) / 2)).
  move=> j Hj. case: (PeanoNat.Nat.eq_dec j n) => [->|Hne].
  - split.
    + exists s1. split=> // E. have := K s1 ltac:(lia). rewrite E Rminus_0_r. lra.
    + exists s2. split=> // E. have := K s2 ltac:(lia). rewrite E Rminus_0_r. lra.
  - apply: H; last by lia. move=> a b Ha Hb. apply: Rle_trans M0. by apply: Hy; lia.
Qed.
Lemma moving_moved x n mpv mpc : (0 < n)%coq_nat -> moving x n mpv mpc -> moved false x n (first_pos mpv).
Proof. move=> Hn H. have [[s [A B]] _] := H 0%N Hn. by exists 0%N, s. Qed.
Lemma moving_active x n mpv mpc : moving x n mpv mpc -> active x n mpv mpc.
Proof. move=> H j Hj. by case: (H j Hj). Qed.

(** For every item of a list there is a small enough d: one d serves all. *)
Lemma all_small A (P : A -> R -> Prop) (l : list A) : (forall a d d', P a d -> (0 < d' <= d)%re -> P a d') ->
  (forall a, List.In a l -> exists d, (0 < d)%re /\ P a d) -> exists d, (0 < d)%re /\ forall a, List.In a l -> P a d.
Proof.
  move=> Hd. elim: l => [|a l IH] H; first by exists 1%re; split; [lra|].
  have [|d [D1 D2]] := IH; first by move=> b Hb; apply: H; right. have [d' [D3 D4]] := H a (or_introl erefl).
  exists (Rmin d d')%re. have Hp : (0 < Rmin d d')%re by apply: Rmin_glb_lt.
  have := Rmin_l d d'. have := Rmin_r d d'. move=> L1 L2. split=> // b [<-|Hb]; [exact: (Hd _ d')|exact: (Hd _ d _ (D2 b Hb))].
Qed.

Section Chain.
  Context (label : option xr * option xr -> string) (returns : frame (N := XR) time) (x : nat -> nat -> R) (pairs : list (option xr * option xr)) (mpv mpc : nat) (K : nat).
  Let n := List.length (fcols returns).
  Let T := List.length (findex returns).
  Let LA := RLA n K.
  Hypothesis HK : List.length (firsts (List.map label pairs)) = K.
  Context (to_mat : frame (N := XR) string -> 'M[R]_n) (to_vec : list xr -> 'cV[R]_n).
  Hypothesis Hr : reads_matrix n to_mat. Hypothesis Hrv : reads_vector n to_vec.
  Hypothesis Hv : valid_returns returns. Hypothesis Hx : returns_are false returns x. Hypothesis Hp : positive_halflives pairs.
  Hypothesis HT : (first_pos mpv + first_pos mpc < T)%coq_nat. Hypothesis Hm : moving x n mpv mpc.

  Lemma opt_feas (slv : solver LA) : returns_optimal slv -> returns_feasible slv.
  Proof. by move=> H h p w /H []. Qed.
  Lemma chain (c : comb LA) slv window items l L eps : returns_optimal slv ->
    from_ewmas (N := XR) LA label to_mat to_vec returns pairs mpv mpc None false = Ok c -> solve LA slv c window None = (items, None) ->
    short_lim l = Some L -> (0 < eps)%re ->
    exists e, (0 < e)%re /\ forall (returns' : frame (N := XR) time) y,
      valid_returns returns' -> findex returns' = findex returns -> fcols returns' = fcols returns -> returns_are false returns' y ->
      returns_near e n T x y ->
      exists c', from_ewmas (N := XR) LA label to_mat to_vec returns' pairs mpv mpc None false = Ok c' /\
      forall slv', returns_optimal slv' -> exists items', solve LA slv' c' window None = (items', None) /\
        List.length items' = List.length items /\
        forall j r r' (w v : 'cV[R]_n), List.nth_error items j = Some (Some r) -> List.nth_error items' j = Some (Some r') ->
          minimiser (vol (r_cov LA r : 'M[R]_n)) (portfolio l) w -> minimiser (vol (r_cov LA r' : 'M[R]_n)) (portfolio l) v ->
          forall i, (Rabs (v i 0%R - w i 0%R) <= eps)%re.
  Proof.
    move=> Ho Hc Hs HL He.
    have Hn : (0 < n)%coq_nat by case: Hv => _ [_]; rewrite /n; case: (fcols returns) => [//|a b] _ /=; lia.
    have Hmax : (Nat.max 1 mpv <= T)%coq_nat by move: HT; rewrite /first_pos; lia.
    have spd_of g y c0 slv0 its0 : valid_returns g -> findex g = findex returns -> fcols g = fcols returns -> returns_are false g y -> moving y n mpv mpc ->
      returns_optimal slv0 -> from_ewmas (N := XR) LA label to_mat to_vec g pairs mpv mpc None false = Ok c0 -> solve LA slv0 c0 window None = (its0, None) ->
      forall j r, List.nth_error its0 j = Some (Some r) -> spd (r_cov LA r : 'M[R]_n).
      move=> Hg EI EC Hy My Ho0 Hc0 Hs0 j r Hj.
      have := @C121_data label g y pairs mpv mpc None None K HK.
      rewrite EI EC => H. have [_ [_ /(_ j r Hj) [_ []]]] := H to_mat to_vec Hr Hg Hy Hp (or_introl erefl) Hmax (moving_moved Hn My) (moving_active My) c0 slv0 window its0 (opt_feas Ho0) Hc0 Hs0. done.
    pose P (a : option (Result LA)) (d : R) := match a with None => True | Some r => forall w S' (v : 'cV[R]_n), minimiser (vol (r_cov LA r : 'M[R]_n)) (portfolio l) w ->
       spd S' -> apart d (r_cov LA r : 'M[R]_n) S' -> minimiser (vol S') (portfolio l) v -> forall i, (Rabs (v i 0%R - w i 0%R) <= eps)%re end.
    have [d [Hd HP]] : exists d, (0 < d)%re /\ forall a, List.In a items -> P a d.
      apply: all_small.
      - move=> [r|] d d' //= H Hd' w S' v Hw HS' Ha. apply: H => // i j. apply: Rle_trans (Ha i j) _. lra.
      - move=> [r|] Hin /=; last by exists 1%re; split; [lra|].
        have [j Hj] := List.In_nth_error _ _ Hin. have HS := spd_of returns x c slv items Hv erefl erefl Hx Hm Ho Hc Hs j r Hj.
        case: (Classical_Prop.classic (exists w, minimiser (vol (r_cov LA r : 'M[R]_n)) (portfolio l) w)) => [[w0 Hw0]|Hno].
        + have [d Hd H] := weights_cont HS HL Hw0 He. exists d. split=> // w S' v Hw HS' Ha Hv0.
          rewrite -(min_unique HS (@portfolio_mid n l) Hw0 Hw). exact: H Hv0.
        + exists 1%re. split; first lra. move=> w S' v Hw. by case: Hno; exists w.
    have [e1 [He1 H1]] := C144_continuous label returns x pairs mpv mpc K HK to_mat to_vec Hr Hrv Hv Hx Hp HT Hm c slv window None items d Hd Ho Hc Hs.
    have [e2 [He2 H2]] := moving_open HT Hm.
    exists (Rmin e1 e2). split; first exact: Rmin_glb_lt. move=> g y Hg EI EC Hy Hnear.
    have N1 : returns_near e1 n T x y by move=> a b A B; apply: Rle_trans (Hnear a b A B) (Rmin_l _ _).
    have N2 : returns_near e2 n T x y by move=> a b A B; apply: Rle_trans (Hnear a b A B) (Rmin_r _ _).
    have [c' [Hc' G]] := H1 g y Hg EI EC Hy N1. exists c'. split=> // slv' Ho'. have [items' [Hs' [El G']]] := G slv' Ho'. exists items'. split=> //. split=> // j r r' w v Hj Hj' Hw Hv0 i.
    have HS' := spd_of g y c' slv' items' Hg EI EC Hy (H2 y N2) Ho' Hc' Hs' j r' Hj'.
    have Hin : List.In (Some r) items by apply: List.nth_error_In Hj.
    apply: (HP _ Hin w _ v Hw HS' _ Hv0) => a b. have [_ [_ [_ Hn4]]] := G' j r r' Hj Hj'. rewrite Rabs_minus_sym. exact: Hn4.
  Qed.
End Chain.
