(** * The combination depends continuously on the covariances, the means and the returns (C143).

    Models: Combination.v with the real matrices of RealLA.v.  Vocabulary: SpecComb.v, SpecCombR.v, SpecStable.v
    ([near_dicts], [near_means], [near_entries]: the same keys, entries that differ by at most e; [results_near]). *)
From Coq Require Import Reals Lra ZArith String List Lia.
Set Warnings "-notation-overridden,-ambiguous-paths".
From mathcomp Require Import all_ssreflect all_algebra.
From Verif Require Import RStruct MatR Spec Num Py Combination SpecComb CombBuild RealLA SpecCombR SpecNear SpecStable CombExact CombOk CombEx FromExRun FromEx StableTop CombStable CombStableRun.
Set Implicit Arguments.
Unset Strict Implicit.
Unset Printing Implicit Defensive.
Import GRing.Theory.
Local Open Scope ring_scope.
Delimit Scope R_scope with re.
Delimit Scope Z_scope with z.

(** Exact arithmetic for the experts in s. *)
Local Notation LA s := (RLA _ (List.length s)).

(** C143: however small d, data close enough to the given data are accepted and give the same run up to d. *)
Theorem C143_continuous : forall n (sigmas : covs n) (means : option (mus n)) (returns : rets n) (c : comb (LA sigmas))
    slv window times items d,
  dicts sigmas -> from_sigmas (LA sigmas) sigmas returns means = Ok c -> all_sym sigmas -> increasing (forecast_times (LA sigmas) sigmas) ->
  (0 < d)%re -> returns_optimal slv -> solve (LA sigmas) slv c window times = (items, None) ->
  exists e, (0 < e)%re /\ forall sigmas' means' (returns' : rets n),
    near_dicts e sigmas sigmas' -> near_means e means means' -> near_entries (n := 1) e returns returns' -> all_sym sigmas' ->
    exists c', from_sigmas (LA sigmas') sigmas' returns' means' = Ok c' /\
    forall slv', returns_optimal slv' -> exists items', solve (LA sigmas') slv' c' window times = (items', None) /\
      List.length items' = List.length items /\
      forall j r r', List.nth_error items j = Some (Some r) -> List.nth_error items' j = Some (Some r') -> results_near d r r'.
Proof.
  move=> n sigmas means returns c slv window times items d H1 H2 H3 H4 H5 H6 H7.
  exact: (@stable_run n sigmas means returns c H1 H2 H3 H4 slv window times items d H5 H6 H7).
Qed.
Print Assumptions C143_continuous.

(** One asset with returns 1, 2, 4, 8, half-lives 1 and 1/2, a window of 2: two results. *)
Lemma sb_sym : all_sym fr_s.
Proof. move=> ks tS H1 H2. by case: (fr_spd H1 H2). Qed.
Lemma sb_case : exists c r3 r4, from_sigmas (LA fr_s) fr_s fr_rows (Some fr_m) = Ok c /\ solve (LA fr_s) (@best 1 2) c (Some 2%N) None = ([:: Some r3; Some r4], None).
Proof. have [c [r3 [r4 [Hc Hs]]]] := fr_run. exists c, r3, r4. split=> //. by rewrite -fr_comb. Qed.

(** The data with each return moved by at most e. *)
Definition nudge (e : R) (rows : rets 1) : rets 1 := List.map (fun tr => (fst tr, snd tr + const_mx (e : R))) rows.
Lemma nudge_near e rows : (0 <= e)%re -> near_entries (n := 1) e rows (nudge e rows).
Proof.
  move=> He. elim: rows => [|[t x] rows IH]; first by constructor. constructor; last exact: IH. split=> // i j.
  have E : (x i j + e - x i j = e)%re by ring. rewrite /= mxE [const_mx _ _ _]mxE. toR. rewrite E Rabs_right; [exact: Rle_refl|exact: Rle_ge].
Qed.
Lemma near_refl_e m n e (a : list (Z * 'M[R]_(m, n))) : (0 <= e)%re -> near_entries e a a.
Proof. move=> He. elim: a => [|x a IH]; constructor=> //. split=> // i j. rewrite Rminus_diag_eq // Rabs_R0. done. Qed.
Lemma near_refl_d m n e (a : list (string * list (Z * 'M[R]_(m, n)))) : (0 <= e)%re -> near_dicts e a a.
Proof. move=> He. elim: a => [|x a IH]; constructor=> //. split=> //. exact: near_refl_e. Qed.

Example C143_case : exists c r3 r4 e, from_sigmas (LA fr_s) fr_s fr_rows (Some fr_m) = Ok c /\
  solve (LA fr_s) (@best 1 2) c (Some 2%N) None = ([:: Some r3; Some r4], None) /\ (0 < e)%re /\
  exists c', from_sigmas (LA fr_s) fr_s (nudge e fr_rows) (Some fr_m) = Ok c' /\
  exists items', solve (LA fr_s) (@best 1 2) c' (Some 2%N) None = (items', None) /\ List.length items' = 2%N /\
    forall r', List.nth_error items' 1 = Some (Some r') -> results_near (/ 100)%re r4 r'.
Proof.
  have [c [r3 [r4 [Hc Hs]]]] := sb_case. have Hp : (0 < / 100)%re by lra.
  have [e [He H]] := C143_continuous fr_dicts Hc sb_sym fr_inc Hp (@best_opt 1 2) Hs. exists c, r3, r4, e. do 3 (split=> //).
  have He' : (0 <= e)%re by lra.
  have [c' [Hc' Hr]] := H fr_s (Some fr_m) (nudge e fr_rows) (near_refl_d fr_s He') (near_refl_d (n := 1) fr_m He') (nudge_near fr_rows He') sb_sym.
  exists c'. split=> //. have [items' [E [L P]]] := Hr (@best 1 2) (@best_opt 1 2). exists items'. split=> //. split=> // r' Hr'. exact: P Hr'.
Qed.
