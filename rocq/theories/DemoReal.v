(** * The demo in exact arithmetic: the dates of the table (C128). *)
From Coq Require Import Reals Lra ZArith String List Lia.
Set Warnings "-notation-overridden,-ambiguous-paths".
From mathcomp Require Import all_ssreflect all_algebra.
From Verif Require Import RStruct MatR Spec Num Py ListFacts Ewma SpecEwma EwmaAny Combination SpecComb CombFacts FromEwmas SpecFrom RealLA SpecCombR SpecRank SpecRankR SpecFromR FromUnits SpecCross FromFiniteMean SpecDemo Demo DemoRun DemoFin CmRun.
Set Implicit Arguments.
Unset Strict Implicit.
Unset Printing Implicit Defensive.
Local Open Scope coq_nat_scope.
Delimit Scope Z_scope with z.

Lemma skipn_NoDup A (l : list A) k : List.NoDup l -> List.NoDup (List.skipn k l).
Proof. elim: k l => [//|k IH] [//|a l] H /=. apply: IH. by inversion H. Qed.
Lemma skipn_tl A (l : list A) k : List.skipn k (List.tl l) = List.skipn (S k) l.
Proof. case: l => [|a l] //=. by case: k. Qed.

Lemma demo_dates (label : option xr * option xr -> string) pad (prices : frame (N := XR) time) P names q pairs mpv mpc clip_at rc K
  (to_mat : frame (N := XR) string -> 'M[R]_(List.length names)) (to_vec : list xr -> 'cV[R]_(List.length names)) :
  let n := List.length names in let LA := RLA n K in
  List.length (firsts (List.map label pairs)) = K -> reads_matrix n to_mat ->
  wf_frame prices -> increasing (findex prices) -> prices_are prices P -> List.NoDup (fcols prices) -> columns_of names (fcols prices) q -> names <> nil ->
  positive_halflives pairs -> clip_is clip_at rc -> Nat.max 1 mpv < List.length (findex prices) ->
  let x := fun i => relative P (q i) in moved true x n (first_pos mpv) ->
  (forall p h, List.In p pairs -> fst p = Some (Fin h) -> crosses h x n mpv mpc) ->
  forall slv window table, returns_feasible slv ->
  demo (N := XR) LA label to_mat to_vec slv pad names prices pairs mpv mpc clip_at window = Ok table ->
  let fp := first_pos mpv + first_pos mpc in let T := List.length (findex prices) - 1 - fp in let w := eff T window in
  2 <= T /\ List.map fst table = List.skipn (1 + fp + w) (findex prices) /\ forall tw, List.In tw table -> feasible K (snd tw).
Proof.
move=> n LA HK Hr Hwf Hinc HP Hn Hq Hne Hh Hcl Hl x Hm Hx slv window table Hs Hd.
have [g [Eg [Gi [Gc [Gv Gr]]]]] := @returns_of_prices pad names prices P q Hwf Hinc HP Hn Hq Hne.
have [f [c [rs [Ef [Hc [Hsol ->]]]]]] := demo_inv _ _ _ _ _ _ _ _ _ _ _ _ _ _ Hd.
rewrite Eg in Ef. case: Ef => Ef. subst f. clear Hd. unfold LA, n in *. clear LA n. subst names. cbv zeta.
have Hl' : Nat.max 1 mpv <= List.length (findex g) by rewrite Gi; case: (findex prices) Hl => [|a l] /=; lia.
have Hfin := finite_items_mean g x pairs mpv mpc clip_at rc Gv (Hx' Gr) Hh Hcl Hx.
have := run_schedule HK Hr Gv Gr Hh Hcl Hl' Hm (fun p outs o A B C => proj1 (Hfin p outs o A B C)) Hs Hc Hsol.
cbv zeta. set fp := first_pos mpv + first_pos mpc.
have ET : List.length (findex g) - fp = List.length (findex prices) - 1 - fp by rewrite Gi; case: (findex prices) => [|a l] /=; lia.
rewrite ET. set T := _ - 1 - fp. set w := eff T window => -[H2 [L1 L2]]. rewrite List.map_length in L1.
have Et : List.map (r_time (RLA (List.length (fcols g)) K)) rs = List.skipn (1 + fp + w) (findex prices).
  have -> : List.skipn (1 + fp + w) (findex prices) = List.skipn (fp + w) (findex g) by rewrite Gi skipn_tl.
  apply: (@List.nth_ext _ _ _ Z0 Z0); first by rewrite List.map_length List.skipn_length; lia.
  rewrite List.map_length => j Hj. rewrite nth_skipn_eq. case Er: (List.nth_error rs j) => [r|]; last by move/List.nth_error_None: Er; lia.
  have Ej : List.nth_error (List.map Some rs) j = Some (Some r) by rewrite List.nth_error_map Er.
  have [<- _] := L2 j r Ej. apply: List.nth_error_nth. by rewrite List.nth_error_map Er.
have Hnd : List.NoDup (List.map (r_time (RLA (List.length (fcols g)) K)) rs).
  rewrite Et. apply: skipn_NoDup. exact: increasing_NoDup.
rewrite dict_of_nodup; last by rewrite List.map_map.
split=> //. split; first by rewrite List.map_map.
move=> tw /List.in_map_iff [r [<- Hin]] /=. have [j Hj] := List.In_nth_error _ _ Hin.
have [_ [_ H]] := L2 j r ltac:(by rewrite List.nth_error_map Hj). exact: H.
Qed.
