(** * When a run of the combination succeeds (C27, C56), in exact arithmetic. *)
From Coq Require Import Reals Lra ZArith String List Lia.
Set Warnings "-notation-overridden,-ambiguous-paths".
From mathcomp Require Import all_ssreflect all_algebra.
From Verif Require Import RStruct MatR Spec Num Py ListFacts Combination SpecComb CombFacts CombBuild CombSolve CombRun CombProps CombItems RealLA SpecCombR CombReal CombObj CombOpt CombExact CombExist.
Set Implicit Arguments.
Unset Strict Implicit.
Unset Printing Implicit Defensive.
Import GRing.Theory.
Local Open Scope ring_scope.
Delimit Scope R_scope with re.

Lemma spd_factor n K (S : 'M[R]_n) : spd S -> precision_factor (RLA n K) S <> None.
Proof.
move=> HS. rewrite /precision_factor /=. rewrite (spd_unit HS).
by case: (chol_complete (spd_inv HS)) => L ->.
Qed.
Lemma spd_factors n K (s : covs n) : all_spd s -> factors_exist (RLA n K) s.
Proof. move=> H ks tS Hk Ht. apply: spd_factor. exact: H Hk Ht. Qed.
Lemma spd_sym n (s : covs n) : all_spd s -> all_sym s.
Proof. by move=> H ks tS Hk Ht; case: (H ks tS Hk Ht). Qed.

(** Symmetric matrices have a precision factor exactly when they are positive definite. *)
Lemma factors_spd n K (s : covs n) : all_sym s -> factors_exist (RLA n K) s -> all_spd s.
Proof.
move=> Hy Hf ks tS Hk Ht. have := Hf ks tS Hk Ht. have Hs := Hy ks tS Hk Ht. rewrite /precision_factor /=.
case: ifP => // Hu. case E : chol => [L|] // _.
apply: (spd_inv_iff Hu). apply: is_chol_spd. apply: chol_is_chol E. exact: sym_inv.
Qed.

Section Healthy.
  Context (n : nat) (sigmas : covs n) (means : option (mus n)) (returns : rets n).
  Let K := List.length sigmas.
  Let LA := RLA n K.
  Hypothesis Hd : dicts sigmas.
  Hypothesis Hst : same_times LA sigmas.
  Hypothesis Hp : all_spd sigmas.
  Hypothesis Hm : means_ok LA sigmas means.

  Theorem healthy_build : exists c, from_sigmas LA sigmas returns means = Ok c.
  Proof. eexists. apply: from_sigmas_ok => //. exact: spd_factors. Qed.

  Hypothesis Hi : increasing (forecast_times LA sigmas).
  Hypothesis Hr : returns_known LA sigmas returns.
  Hypothesis Hl : (2 <= List.length (forecast_times LA sigmas))%coq_nat.
  Context (window : option nat) (times : option (list Z)).
  Hypothesis Hv : valid_times LA sigmas times.
  Let w := eff (List.length (forecast_times LA sigmas)) window.
  Hypothesis Hq : forall i, List.In i (positions (scored LA sigmas) w times) ->
    spd (quad LA sigmas means returns (window_at LA sigmas w i) : 'M[R]_K).

  Lemma healthy_prepare : exists c todo, from_sigmas LA sigmas returns means = Ok c /\
    prepare LA c window times = Ok todo /\ List.length todo = List.length (positions (scored LA sigmas) w times).
  Proof.
    exists (built LA sigmas returns means).
    have Hf := @spd_factors n K _ Hp.
    pose g i := (List.nth i (scored LA sigmas) Z0, (diags LA sigmas (window_at LA sigmas w i),
       if chol (quad LA sigmas means returns (window_at LA sigmas w i)) is Some C then C else 0) : problem LA).
    exists (List.map g (positions (scored LA sigmas) w times)). split; last split.
    - exact: from_sigmas_ok.
    - rewrite prepare_positions //. apply: mapM_ok => i Hin.
      rewrite /posed /=. have := Hq Hin. rewrite -/w /g => Hs. by case: (chol_complete Hs) => C ->.
    - by rewrite List.map_length.
  Qed.

  Lemma loop_length slv c h todo items : solve_loop LA slv c h todo = (items, None) -> List.length items = List.length todo.
  Proof.
    elim: todo h items => [|[t p] l IH] h items /=; first by case=> <-.
    case: (slv h p) => [x|].
    - case: (result_at LA c t x) => // r. case E: solve_loop => [iz ex] /= [<- Ee]. rewrite Ee in E. by rewrite /= (IH _ _ E).
    - case E: solve_loop => [iz ex] /= [<- Ee]. rewrite Ee in E. by rewrite /= (IH _ _ E).
  Qed.
  Lemma loop_total slv c h todo items : (forall h p, (exists t, List.In (t, p) todo) -> slv h p <> None) ->
    solve_loop LA slv c h todo = (items, None) -> List.Forall (fun x => x <> None) items.
  Proof.
    elim: todo h items => [|[t p] l IH] h items Ht /=; first by case=> <-.
    have Hp1 : slv h p <> None by apply: Ht; exists t; left.
    case: (slv h p) Hp1 => [x|//] _.
    case: (result_at LA c t x) => // r. case E: solve_loop => [iz ex] /= [<- Ee]. rewrite Ee in E.
    constructor=> //. apply: IH E => h' p' [t' Ht']. apply: Ht. exists t'. by right.
  Qed.

  (** C56: a healthy run completes. *)
  Theorem healthy_run slv : returns_feasible slv ->
    exists c items, from_sigmas LA sigmas returns means = Ok c /\ solve LA slv c window times = (items, None) /\
      List.length items = List.length (positions (scored LA sigmas) w times).
  Proof.
    move=> Hs. have [c [todo [Hc [Ht Hlen]]]] := healthy_prepare.
    have [items E] := exact_no_raise Hd Hc (spd_sym Hp) Hs Hi Ht.
    exists c, items. split=> //. split=> //. rewrite -Hlen. move: E; rewrite /solve Ht. exact: loop_length.
  Qed.

  Theorem healthy_best slv : returns_optimal slv -> (forall h p, (exists w, optimal p w) -> slv h p <> None) ->
    exists c items, from_sigmas LA sigmas returns means = Ok c /\ solve LA slv c window times = (items, None) /\
      List.length items = List.length (positions (scored LA sigmas) w times) /\ List.Forall (fun x => x <> None) items.
  Proof.
    move=> Hs Htot. have [c [todo [Hc [Ht Hlen]]]] := healthy_prepare.
    have Hf : returns_feasible slv by move=> h p x Hx; case: (Hs _ _ _ Hx).
    have [items E] := exact_no_raise Hd Hc (spd_sym Hp) Hf Hi Ht.
    exists c, items. split=> //. split=> //. move: E; rewrite /solve Ht => E. split.
    - rewrite -Hlen. exact: loop_length E.
    - apply: loop_total E => h p [t Htp]. apply: Htot.
      case: (exact_optimum Hd Hc (spd_sym Hp) Hi Ht Htp) => x [Hx _]. by exists x.
  Qed.
End Healthy.

(** A zero row makes a forecast useless for the combination. *)
Lemma zero_row_singular n (S : 'M[R]_n) i : (forall j, S i j = 0) -> S \in unitmx = false.
Proof.
move=> H. case Hu : (S \in unitmx) => //. have E : row i S = 0 by apply/rowP => j; rewrite !mxE H.
have : row i (1%:M : 'M[R]_n) = 0 by rewrite -(mulmxV Hu) row_mul E mul0mx.
move/rowP/(_ i). rewrite !mxE eqxx => E1. by move/eqP: E1; rewrite oner_eq0.
Qed.
Lemma zero_variance_fails n (sigmas : covs n) (means : option (mus n)) (returns : rets n) ks tS i :
  means_ok (RLA n (List.length sigmas)) sigmas means -> List.In ks sigmas -> List.In tS (snd ks) -> (forall j, (snd tS) i j = 0) ->
  from_sigmas (RLA n (List.length sigmas)) sigmas returns means = Raise LinAlgError.
Proof.
move=> Hm Hk Ht H0. apply: from_sigmas_singular => // /(_ ks tS Hk Ht). apply.
by rewrite /precision_factor /= (zero_row_singular H0).
Qed.
