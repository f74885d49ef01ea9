(** * A concrete family of experts that meets the hypotheses of the combination theorems:
    two assets, two experts with diagonal covariances at times 1..N, returns (x, x) at every time. *)
From Coq Require Import Reals Lra ZArith String List Lia Permutation.
From Coq Require Import ClassicalEpsilon.
Set Warnings "-notation-overridden,-ambiguous-paths".
From mathcomp Require Import all_ssreflect all_algebra.
From Verif Require Import RStruct MatR Spec Num Py ListFacts Combination SpecComb CombFacts CombBuild CombSolve CombRun CombProps CombItems RealLA SpecCombR CombReal CombObj CombOpt CombExact CombExist CombOk CombScale.
Set Implicit Arguments.
Unset Strict Implicit.
Unset Printing Implicit Defensive.
Import GRing.Theory.
Local Open Scope ring_scope.
Delimit Scope R_scope with re.

Ltac nlia := unfold addn, addn_rec, subn, subn_rec in *; lia.

(** An optimiser: some optimal weights whenever there are any. *)
Definition best n K : solver (RLA n K) := fun _ p =>
  match excluded_middle_informative (exists w, optimal p w) with
  | left H => Some (proj1_sig (constructive_indefinite_description _ H))
  | right _ => None
  end.
Arguments best {n K}.
Lemma best_opt n K : returns_optimal (@best n K).
Proof. move=> h p w. rewrite /best. case: excluded_middle_informative => // H [<-]. exact: proj2_sig. Qed.
Lemma best_total n K h p : (exists w, optimal p w) -> @best n K h p <> None.
Proof. rewrite /best. by case: excluded_middle_informative. Qed.
Lemma best_feasible n K : returns_feasible (@best n K).
Proof. by move=> h p w /best_opt []. Qed.

(** diag(a, b) *)
Definition dg (a b : R) : 'M[R]_2 := diag_mx (\row_j if j == 0 then a else b).
Lemma dg_mul a b c d : dg a b *m dg c d = dg (a * c) (b * d).
Proof. rewrite /dg mulmx_diag. congr diag_mx. apply/rowP => j. rewrite !mxE. by case: ifP. Qed.
Lemma dg_tr a b : (dg a b)^T = dg a b.
Proof. exact: tr_diag_mx. Qed.
Lemma dg_1 : dg 1 1 = 1%:M.
Proof. apply/matrixP => i j. rewrite !mxE. by case: ifP => _; case: eqP. Qed.
Lemma dg_scale x a b : x *: dg a b = dg (x * a) (x * b).
Proof. apply/matrixP => i j. rewrite !mxE mulrnAr. by case: ifP. Qed.
Lemma dg_unit a b : a <> 0 -> b <> 0 -> dg a b \in unitmx.
Proof.
move=> Ha Hb. suff /mulmx1_unit [] : dg a b *m dg (/ a)%re (/ b)%re = 1%:M by [].
rewrite dg_mul -dg_1. congr dg; toR; by apply: Rinv_r.
Qed.
Lemma dg_inv a b : a <> 0 -> b <> 0 -> invmx (dg a b) = dg (/ a)%re (/ b)%re.
Proof.
move=> Ha Hb. have E : dg a b *m dg (/ a)%re (/ b)%re = 1%:M.
  rewrite dg_mul -dg_1. congr dg; toR; by apply: Rinv_r.
by rewrite -[LHS]mulmx1 -E mulmxA mulVmx ?dg_unit // mul1mx.
Qed.
Lemma dg_trig a b : is_trig_mx (dg a b).
Proof. apply/is_trig_mxP => i j Hij. rewrite !mxE. have -> : (i == j) = false; last by rewrite mulr0n.
by apply/eqP => E; move: Hij; rewrite E ltnn. Qed.
Lemma dg_chol a b : (0 < a)%re -> (0 < b)%re -> is_chol (dg (a * a) (b * b)) (dg a b).
Proof.
move=> Ha Hb. split; first exact: dg_trig. split; last by rewrite dg_tr dg_mul.
move=> i. rewrite !mxE eqxx mulr1n. by case: ifP.
Qed.
Lemma dg_spd a b : (0 < a)%re -> (0 < b)%re -> spd (dg a b).
Proof.
move=> Ha Hb. have E : dg a b = dg (sqrt a * sqrt a) (sqrt b * sqrt b).
  by congr dg; toR; rewrite sqrt_sqrt //; lra.
rewrite E. apply: is_chol_spd. apply: dg_chol; exact: sqrt_lt_R0.
Qed.

(** The covariance with precision factor diag(a, b). *)
Definition cv (a b : R) : 'M[R]_2 := dg (/ (a * a))%re (/ (b * b))%re.
Definition tsN (N : nat) : list Z := List.map Z.of_nat (List.seq 1 N).
Lemma tsN_nodup N : List.NoDup (tsN N).
Proof. apply: FinFun.Injective_map_NoDup; last exact: List.seq_NoDup. by move=> p q; lia. Qed.
Lemma seq_inc k N : increasing (List.map Z.of_nat (List.seq k N)).
Proof. elim: N k => [|[|N] IH] k //. cbn. split; first lia. exact: (IH k.+1). Qed.
Lemma const_get (V : Type) (v : Z -> V) (l : list Z) t : List.In t l -> dict_get Z.eqb (List.map (fun t => (t, v t)) l) t = Some (v t).
Proof.
elim: l => [|u l IH] //=. case: Z.eqb_spec => [->|Hne] //. case=> [E|//]. by case: Hne.
Qed.
Lemma const_keys (V : Type) (v : Z -> V) (l : list Z) : List.map fst (List.map (fun t => (t, v t)) l) = l.
Proof. by rewrite List.map_map List.map_id. Qed.
Definition exs (N : nat) (n1 n2 : string) (a b c : R) (d : Z -> R) : covs 2 :=
  [:: (n1, List.map (fun t => (t, cv a b)) (tsN N)); (n2, List.map (fun t => (t, cv c (d t))) (tsN N))].
Definition exr (N : nat) (x : R) : rets 2 := List.map (fun t => (t, const_mx x : 'cV[R]_2)) (tsN N).

Section Ex.
  Context (N : nat) (n1 n2 : string) (a b c : R) (d : Z -> R) (x : R).
  Hypothesis Hn : n1 <> n2.
  Hypothesis Ha : (0 < a)%re. Hypothesis Hb : (0 < b)%re.
  Hypothesis Hc : (0 < c)%re. Hypothesis Hdd : forall t, (0 < d t)%re.
  Hypothesis Hx : x <> 0.
  Hypothesis Hdet : forall t u, consecutive (tsN N) t u -> (a * d t <> b * c)%re.
  Let s := exs N n1 n2 a b c d.
  Let LA := RLA 2 2.

  Lemma ex_dicts : dicts s.
  Proof.
    split.
      repeat constructor; cbn; intuition.
    repeat constructor; rewrite /= const_keys; exact: tsN_nodup.
  Qed.
  Lemma ex_spd : all_spd s.
  Proof.
    move=> ks tS Hk Ht.
    have H : forall p q, (0 < p)%re -> (0 < q)%re -> spd (cv p q).
      move=> p q Hp Hq. apply: dg_spd; apply: Rinv_0_lt_compat; exact: Rmult_lt_0_compat.
    case: Hk => [E|[E|[]]]; subst ks; simpl in Ht; case/List.in_map_iff: Ht => t [<- _]; by apply: H.
  Qed.
  Lemma ex_times : forecast_times LA s = tsN N.
  Proof. exact: const_keys. Qed.
  Lemma ex_same : same_times LA s.
  Proof. by move=> ks t [<-|[<-|[]]]; rewrite ex_times /= const_keys. Qed.
  Lemma ex_inc : increasing (forecast_times LA s).
  Proof. rewrite ex_times. exact: seq_inc. Qed.
  Lemma ex_inc_all ks : List.In ks s -> increasing (List.map fst (snd ks)).
  Proof. by move=> [<-|[<-|[]]]; rewrite /= const_keys; exact: seq_inc. Qed.
  Lemma ex_known y : returns_known LA s (exr N y).
  Proof.
    move=> t. rewrite /scored ex_times /exr const_keys. by case: (tsN N) => [|u l] //= H; right.
  Qed.
  Lemma ex_len : List.length (forecast_times LA s) = N.
  Proof. by rewrite ex_times /tsN List.map_length List.seq_length. Qed.
  Lemma ex_slen : List.length (scored LA s) = (N - 1)%coq_nat.
  Proof. by rewrite /scored ex_times /tsN; case: (N) => [|k] //=; rewrite List.map_length List.seq_length; nlia. Qed.

  Lemma ex_fac t : List.In t (tsN N) -> fac s t 0 = dg a b /\ fac s t 1 = dg c (d t).
  Proof.
    move=> Ht.
    have H : forall p q, (0 < p)%re -> (0 < q)%re -> precision_factor LA (cv p q) = Some (dg p q).
      move=> p q Hp Hq. have Hpp : (0 < p * p)%re by exact: Rmult_lt_0_compat.
      have Hqq : (0 < q * q)%re by exact: Rmult_lt_0_compat.
      have N1 : (/ (p * p) <> 0)%re by apply: Rgt_not_eq; apply: Rinv_0_lt_compat.
      have N2 : (/ (q * q) <> 0)%re by apply: Rgt_not_eq; apply: Rinv_0_lt_compat.
      rewrite /precision_factor /= /cv dg_unit //. apply: chol_unique.
      rewrite dg_inv // !Rinv_inv. exact: dg_chol.
    have G : forall S : Z -> 'M[R]_2, dict_get Z.eqb (List.map (fun t => (t, S t)) (tsN N)) t = Some (S t).
      move=> S. exact: const_get.
    rewrite /fac /factor /s /=. rewrite String.eqb_refl.
    have -> : String.eqb n2 n1 = false by apply/String.eqb_neq => E; apply: Hn.
    rewrite String.eqb_refl. have := G (fun _ => cv a b); have := G (fun t => cv c (d t)). rewrite /= => -> ->.
    by rewrite !H.
  Qed.

  Lemma ex_quad (r : rets 2) m w i : (1 <= w)%coq_nat -> (w <= i + 1)%coq_nat -> (i < N - 1)%coq_nat ->
    (forall t, List.In t (tsN N) -> return_at LA r t = const_mx x) ->
    (forall k t, mean_of m s k t = 0) ->
    spd (quad LA s m r (window_at LA s w i) : 'M[R]_2).
  Proof.
    move=> Hw Hwi Hi Hret Hm. rewrite quad_pairs_at. split; first exact (@quad_sym 2 s m r (pairs_at LA s w i)).
    move=> y Hy. have [y0 [y1 Ey]] : exists y0 y1, y = wvec 2 [:: y0; y1].
      exists (y 0 0), (y 1 0). apply/colP => k. rewrite !mxE. case: k => [[|[|//]] Hk] /=; congr (y _ _); exact: val_inj.
    set v := [:: y0; y1] in Ey.
    rewrite Ey. have := @quad_gram 2 s m r v (pairs_at LA s w i). rewrite [List.length s]/= => ->.
    have Hne : pairs_at LA s w i <> nil.
      move=> E. have : List.length (pairs_at LA s w i) = 0%N by rewrite E.
      rewrite /pairs_at List.map_length /window_at /sub List.firstn_length List.skipn_length.
      rewrite ex_slen. clear -Hw Hwi Hi. move: (w) (i) Hw Hwi Hi => p q Hp Hq Hi. nlia.
    have Hpos : forall st, List.In st (pairs_at LA s w i) ->
       (0 < nsq ((avgL s st.1 v)^T *m ret s r st.2 - avgN s m st.1 v))%re.
      move=> [t u] Hin. have Hcs := pairs_at_consecutive LA _ _ _ _ _ ex_dicts Hin.
      have [Ht Hu] := consecutive_in _ _ _ Hcs. move: Hcs Ht Hu; rewrite ex_times => Hcs Ht Hu.
      have Hdt := Hdet Hcs.
      apply: nsq_gt0. apply/eqP => E.
      have EN : avgN s m t v = 0.
        rewrite /avgN /avg_nu big1 // => k _. by rewrite Hm mulmx0 scaler0.
      move: E. rewrite EN subr0 /ret Hret //= /avgL /avg_factor.
      rewrite [List.length s]/= big_ord_recl big_ord1 /=.
      have [-> ->] := ex_fac Ht. move=> /colP E. have E0 := E 0; have E1 := E 1. clear E.
      move: E0 E1. rewrite !mxE !big_ord_recl !big_ord0 /= !mxE /=.
      rewrite ?mulr1n ?mulr0n. toR => E0 E1.
      have F0 : (y0 * a + y1 * c = 0)%re by apply: (Rmult_eq_reg_r x) => //; lra.
      have F1 : (y0 * b + y1 * d t = 0)%re by apply: (Rmult_eq_reg_r x) => //; lra.
      have G : (a * d t - b * c <> 0)%re by lra.
      have Y0 : (y0 = 0)%re.
        apply: (Rmult_eq_reg_r (a * d t - b * c)) => //.
        transitivity (d t * (y0 * a + y1 * c) - c * (y0 * b + y1 * d t))%re; first by ring.
        rewrite F0 F1; ring.
      have Y1 : (y1 = 0)%re.
        apply: (Rmult_eq_reg_r (a * d t - b * c)) => //.
        transitivity (a * (y0 * b + y1 * d t) - b * (y0 * a + y1 * c))%re; first by ring.
        rewrite F0 F1; ring.
      case/eqP: Hy. rewrite Ey. apply/colP => k. rewrite !mxE.
      case: k => [[|[|//]] Hk]; by rewrite /v /= ?Y0 ?Y1.
    move: Hpos Hne. case: (pairs_at LA s w i) => [//|st l] Hpos _.
    rewrite big_cons. apply: Rplus_lt_le_0_compat; first by apply: Hpos; left.
    have Hl : forall st', List.In st' l -> (0 < nsq ((avgL s st'.1 v)^T *m ret s r st'.2 - avgN s m st'.1 v))%re.
      by move=> st' H'; apply: Hpos; right.
    elim: l Hl {Hpos} => [|st' l IH] Hl; first by rewrite big_nil; toR; lra.
    rewrite big_cons. apply: Rplus_le_le_0_compat; first by apply: Rlt_le; apply: Hl; left.
    by apply: IH => st'' H''; apply: Hl; right.
  Qed.

  Lemma ex_ret t : List.In t (tsN N) -> return_at LA (exr N x) t = const_mx x.
  Proof. by move=> Ht; rewrite /return_at /exr const_get. Qed.

  (** A run of solve() with the optimiser [best] completes, and every item is a result. *)
  Lemma ex_run window times m : (2 <= N)%coq_nat -> valid_times LA s times -> means_ok LA s m ->
    (forall k t, mean_of m s k t = 0) ->
    (forall i, List.In i (positions (scored LA s) (eff N window) times) -> eff N window <= i + 1 /\ i < N - 1)%coq_nat ->
    exists c items, from_sigmas LA s (exr N x) m = Ok c /\ solve LA (@best 2 2) c window times = (items, None) /\
      List.length items = List.length (positions (scored LA s) (eff N window) times) /\
      List.Forall (fun r => r <> None) items.
  Proof.
    move=> HN Hv Hm Hz Hp. have Ef : eff N window = eff (List.length (forecast_times LA s)) window by rewrite ex_len.
    rewrite Ef in Hp *. apply: (@healthy_best 2 s m (exr N x)) => //.
    - exact: ex_dicts.
    - exact: ex_same.
    - exact: ex_spd.
    - exact: ex_inc.
    - exact: ex_known.
    - by rewrite ex_len.
    - move=> i Hi. have [H1 H2] := Hp i Hi. apply: ex_quad => //; last exact: ex_ret.
      rewrite -Ef /eff. case: (window) => [[|k]|]; nlia.
    - exact: best_opt.
    - exact: best_total.
  Qed.
  Lemma ex_positions k i : (2 <= N)%coq_nat ->
    List.In i (positions (scored LA s) (eff N (Some k)) None) -> (eff N (Some k) <= i + 1 /\ i < N - 1)%coq_nat.
  Proof.
    move=> HN. rewrite /positions ex_slen.
    have : (1 <= eff N (Some k))%coq_nat /\ (eff N (Some k) <= N - 1)%coq_nat by rewrite /eff; case: (k) => [|k']; nlia.
    move: (eff N (Some k)) => w Hw /List.in_seq. nlia.
  Qed.
  Lemma ex_none k : (2 <= N)%coq_nat -> exists c items, from_sigmas LA s (exr N x) None = Ok c /\
    solve LA (@best 2 2) c (Some k) None = (items, None) /\
    List.length items = (N - eff N (Some k))%coq_nat /\ List.Forall (fun r => r <> None) items.
  Proof.
    move=> HN. case: (@ex_run (Some k) None None) => //.
      by move=> i; apply: ex_positions.
    move=> c' [items [H1 [H2 [H3 H4]]]]. exists c', items. do 3 split=> //.
    rewrite H3 /positions List.seq_length ex_slen.
    have : (1 <= eff N (Some k))%coq_nat /\ (eff N (Some k) <= N - 1)%coq_nat by rewrite /eff; case: (k) => [|k']; nlia.
    nlia.
  Qed.
End Ex.

(** The example used beside the theorems: precision factors I and diag(1, 2), returns (1, 1). *)
Definition ex0 N : covs 2 := exs N "a"%string "b"%string 1%re 1%re 1%re (fun _ => 2%re).
Definition ex0r N : rets 2 := exr N 1%re.
Lemma ex0_run N k : (2 <= N)%coq_nat -> exists c items, from_sigmas (RLA 2 2) (ex0 N) (ex0r N) None = Ok c /\
  solve (RLA 2 2) (@best 2 2) c (Some k) None = (items, None) /\
  List.length items = (N - eff N (Some k))%coq_nat /\ List.Forall (fun r => r <> None) items.
Proof. move=> HN. apply: ex_none => //; try (toR; intros; lra). Qed.
Lemma ex0_extends N N' : (N <= N')%coq_nat -> extends (ex0 N) (ex0 N') /\ exists ext, ex0r N' = List.app (ex0r N) ext.
Proof.
move=> H. have E : exists k, tsN N' = (tsN N ++ k)%list.
  exists (List.map Z.of_nat (List.seq (1 + N) (N' - N))). rewrite /tsN -List.map_app -List.seq_app. do 2 f_equal.
  nlia.
case: E => k E. split; last by exists (List.map (fun t => (t, const_mx 1%re : 'cV[R]_2)) k); rewrite /ex0r /exr E List.map_app.
rewrite /ex0 /exs /extends E. repeat constructor; rewrite /= List.map_app; by eexists.
Qed.
Arguments ex0_run : clear implicits.
Arguments ex0_extends : clear implicits.

Lemma ex0_prepared N k : (2 <= N)%coq_nat -> exists c todo items, from_sigmas (RLA 2 2) (ex0 N) (ex0r N) None = Ok c /\
  prepare (RLA 2 2) c (Some k) None = Ok todo /\ solve (RLA 2 2) best c (Some k) None = (items, None) /\
  List.length items = (N - eff N (Some k))%coq_nat /\ List.Forall (fun r => r <> None) items /\ todo <> nil /\
  exists r, List.In (Some r) items.
Proof.
move=> HN. have [c [items [H1 [H2 [H3 H4]]]]] := ex0_run N k HN. exists c.
have Hk : (1 <= N - eff N (Some k))%coq_nat by rewrite /eff; case: (k) => [|k']; nlia.
case: items H2 H3 H4 Hk => [|r items] H2 H3 H4 Hk; first by exfalso; move: Hk H3; rewrite [List.length [::]]/=; move: (eff _ _) => e Hk H3; nlia.
have [r' Er] : exists r', r = Some r' by have := List.Forall_inv H4; case: (r) => [r'|] // _; exists r'.
case E : (prepare (RLA 2 2) c (Some k) None) => [todo|e]; last by move: H2; rewrite /solve E.
exists todo, (r :: items). do 5 split=> //. split.
  by move=> E0; move: H2; rewrite /solve E E0.
by exists r'; left; rewrite Er.
Qed.
Arguments ex0_prepared : clear implicits.

(** The experts in the other order, and in other units. *)
Definition ex0_rev N : covs 2 := exs N "b"%string "a"%string 1%re 2%re 1%re (fun _ => 1%re).
Lemma ex0_rev_perm N : Permutation (ex0 N) (ex0_rev N).
Proof. exact: perm_swap. Qed.
Lemma ex0_rev_run N k : (2 <= N)%coq_nat -> exists c items, from_sigmas (RLA 2 2) (ex0_rev N) (ex0r N) None = Ok c /\
  solve (RLA 2 2) best c (Some k) None = (items, None) /\
  List.length items = (N - eff N (Some k))%coq_nat /\ List.Forall (fun r => r <> None) items.
Proof. move=> HN. apply: ex_none => //; try (toR; intros; lra). Qed.

Lemma ex0_scaled N : scale_covs (2 * 2)%re (ex0 N) = exs N "a"%string "b"%string (/ 2)%re (/ 2)%re (/ 2)%re (fun _ => 1%re) /\
  scale_rets 2%re (ex0r N) = exr N 2%re.
Proof.
split; last first.
  rewrite /scale_rets /ex0r /exr List.map_map. apply: List.map_ext => t /=. congr pair.
  apply/colP => i. rewrite !mxE. toR. eqR. ring.
rewrite /scale_covs /ex0 /exs /=. rewrite !List.map_map /=. rewrite /cv !dg_scale.
congr [:: (_, _); (_, _)]; apply: List.map_ext => t; congr (_, dg _ _); toR; field.
Qed.
Lemma ex0_scaled_run N k : (2 <= N)%coq_nat -> exists c items,
  from_sigmas (RLA 2 2) (scale_covs (2 * 2)%re (ex0 N)) (scale_rets 2%re (ex0r N)) None = Ok c /\
  solve (RLA 2 2) best c (Some k) None = (items, None) /\
  List.length items = (N - eff N (Some k))%coq_nat /\ List.Forall (fun r => r <> None) items.
Proof. move=> HN. have [-> ->] := ex0_scaled N. apply: ex_none => //; try (toR; intros; lra). Qed.

(** Any list of experts with covariance I at times 1..N. *)
Definition same_experts N (names : list string) : covs 2 := List.map (fun nm => (nm, List.map (fun t => (t, cv 1 1)) (tsN N))) names.
Lemma same_ok N names (r : rets 2) K : List.NoDup names -> names <> nil ->
  let s := same_experts N names in
  dicts s /\ all_spd s /\ same_times (RLA 2 K) s /\ forecast_times (RLA 2 K) s = tsN N /\
  List.length (forecast_times (RLA 2 K) s) = N /\ increasing (forecast_times (RLA 2 K) s) /\
  returns_known (RLA 2 K) s (exr N 1) /\
  (forall k t, (k < List.length names)%N -> List.In t (tsN N) -> cov_of s k t = Some (cv 1 1)).
Proof.
move=> Hn Hne s.
have Et : forecast_times (RLA 2 K) s = tsN N.
  rewrite /s /same_experts. case: (names) Hne => [//|nm l] _. exact: const_keys.
have Hk : forall ks, List.In ks s -> snd ks = List.map (fun t => (t, cv 1 1)) (tsN N).
  by move=> ks /List.in_map_iff [nm [<- _]].
split.
  split; first by rewrite /s /same_experts List.map_map List.map_id.
  apply/List.Forall_forall => ks /Hk ->. rewrite const_keys. exact: tsN_nodup.
split.
  move=> ks tS /Hk -> /List.in_map_iff [t [<- _]] /=. apply: dg_spd; rewrite /=; lra.
split; first by move=> ks t /Hk ->; rewrite const_keys Et.
split=> //. split; first by rewrite Et /tsN List.map_length List.seq_length.
split; first by rewrite Et; exact: seq_inc.
split.
  move=> t. rewrite /scored Et /exr const_keys. by case: (tsN N) => [|u l] //= H; right.
move=> k t Hk' Ht. rewrite /cov_of (Hk (expert s k)) ?const_get //.
apply: List.nth_In. rewrite /s /same_experts List.map_length. exact/ltP.
Qed.

(** Experts that agree (covariance I) at the last time only. *)
Definition exg N : covs 2 := exs N "a"%string "b"%string 1%re 1%re 1%re (fun t => if Z.eqb t (Z.of_nat N) then 1%re else 2%re).
Lemma consecutive_lt N t u : consecutive (tsN N) t u -> Z.lt t (Z.of_nat N).
Proof.
move=> [l1 [l2 E]]. have Hi := seq_inc 1 N. rewrite -/(tsN N) E in Hi.
have Hlt : forall l a b l', increasing (l ++ a :: b :: l')%list -> Z.lt a b.
  elim=> [|h [|h' l] IH] a' b' l'; cbn.
  - by case.
  - by case=> _ [].
  - by case=> _ /(IH a' b' l').
have Htu := Hlt _ _ _ _ Hi.
have : List.In u (tsN N) by rewrite E; apply/List.in_app_iff; right; right; left.
case/List.in_map_iff => k [Ek /List.in_seq]. lia.
Qed.
Lemma exg_run N k : (2 <= N)%coq_nat -> exists c items, from_sigmas (RLA 2 2) (exg N) (ex0r N) None = Ok c /\
  solve (RLA 2 2) best c (Some k) None = (items, None) /\
  List.length items = (N - eff N (Some k))%coq_nat /\ List.Forall (fun r => r <> None) items.
Proof.
move=> HN. apply: ex_none => //; try (toR; intros; lra).
- by move=> t; case: Z.eqb; lra.
- move=> t u /consecutive_lt H. have -> : Z.eqb t (Z.of_nat N) = false by apply/Z.eqb_neq; lia. toR; lra.
Qed.

Lemma ex0_spd N : all_spd (ex0 N).
Proof. by apply: ex_spd => *; lra. Qed.
Lemma ex0_sym N : all_sym (ex0 N).
Proof. exact: spd_sym (@ex0_spd N). Qed.
Lemma exg_spd N : all_spd (exg N).
Proof. apply: ex_spd; try lra. by move=> t; case: Z.eqb; lra. Qed.

(** One expert. *)
Definition ex1 N : covs 2 := same_experts N [:: "a"%string].
Lemma sum_pos (T : Type) (f : T -> R) (l : list T) : l <> nil -> (forall x, List.In x l -> (0 < f x)%re) -> (0 < \sum_(x <- l) f x)%re.
Proof.
case: l => [//|st l] _ Hpos. rewrite big_cons. apply: Rplus_lt_le_0_compat; first by apply: Hpos; left.
have Hl : forall st', List.In st' l -> (0 < f st')%re by move=> st' H'; apply: Hpos; right.
elim: l Hl {Hpos} => [|st' l IH] Hl; first by rewrite big_nil; toR; lra.
rewrite big_cons. apply: Rplus_le_le_0_compat; first by apply: Rlt_le; apply: Hl; left.
by apply: IH => st'' H''; apply: Hl; right.
Qed.
Lemma ex1_quad N w i : (1 <= w)%coq_nat -> (w <= i + 1)%coq_nat -> (i < N - 1)%coq_nat ->
  spd (quad (RLA 2 1) (ex1 N) None (ex0r N) (window_at (RLA 2 1) (ex1 N) w i) : 'M[R]_1).
Proof.
move=> Hw Hwi Hi.
have [|//|H1 [H2 [H3 [H4 [H5 [H6 [H7 H8]]]]]]] := @same_ok N [:: "a"%string] nil 1 _ _.
  by repeat constructor; cbn.
rewrite quad_pairs_at. split; first exact (@quad_sym 2 (ex1 N) None (ex0r N) (pairs_at (RLA 2 1) (ex1 N) w i)).
move=> y Hy. have Ey : y = wvec 1 [:: y 0 0].
  apply/colP => k. rewrite !mxE. case: k => [[|//] Hk] /=; congr (y _ _); exact: val_inj.
set v := [:: y 0 0] in Ey.
rewrite Ey. have := @quad_gram 2 (ex1 N) None (ex0r N) v (pairs_at (RLA 2 1) (ex1 N) w i). rewrite [List.length _]/= => ->.
have Hne : pairs_at (RLA 2 1) (ex1 N) w i <> nil.
  move=> E. have : List.length (pairs_at (RLA 2 1) (ex1 N) w i) = 0%N by rewrite E.
  rewrite /pairs_at List.map_length /window_at /sub List.firstn_length List.skipn_length.
  have -> : List.length (scored (RLA 2 1) (ex1 N)) = (N - 1)%coq_nat.
    by rewrite /scored H4 /tsN; case: (N) => [|k] //=; rewrite List.map_length List.seq_length; nlia.
  clear -Hw Hwi Hi. move: (w) (i) Hw Hwi Hi => p q Hp Hq Hi. nlia.
have Hf : forall t, List.In t (tsN N) -> fac (ex1 N) t 0 = 1%:M.
  move=> t Ht. rewrite /fac /factor /ex1 /= const_get // /precision_factor /=.
  have -> : cv 1 1 = 1%:M by rewrite /cv -dg_1; congr dg; toR; field.
  have Ec : chol (1%:M : 'M[R]_2) = Some 1%:M by apply: chol_unique; rewrite -dg_1; have := @dg_chol 1%re 1%re Rlt_0_1 Rlt_0_1; congr is_chol; congr dg; toR; ring.
  rewrite unitmx1 invmx1. by move: Ec => /= ->.
apply: sum_pos => // -[t u] Hin. have Hcs := @pairs_at_consecutive (RLA 2 1) _ _ _ _ _ H1 Hin.
have [Ht Hu] := consecutive_in _ _ _ Hcs. move: Ht Hu; rewrite H4 => Ht Hu.
apply: nsq_gt0. apply/eqP => E.
have EN : avgN (ex1 N) None t v = 0.
  by rewrite /avgN /avg_nu big1 // => k _; rewrite /mean_of mulmx0 scaler0.
move: E. rewrite EN subr0 /ret /return_at /ex0r /exr (@const_get _ (fun _ => const_mx 1%re)) //= /avgL /avg_factor.
rewrite [List.length _]/= big_ord1 /= Hf // => /colP /(_ 0).
rewrite linearZ /= trmx1 -scalemxAl mul1mx !mxE mulr1 => E.
case/eqP: Hy. rewrite Ey. apply/colP => k. rewrite !mxE. by case: k => [[|//] Hk].
Qed.
Lemma ex1_run N k : (2 <= N)%coq_nat -> exists c items, from_sigmas (RLA 2 1) (ex1 N) (ex0r N) None = Ok c /\
  solve (RLA 2 1) best c (Some k) None = (items, None) /\
  List.length items = (N - eff N (Some k))%coq_nat /\ List.Forall (fun r => r <> None) items.
Proof.
move=> HN.
have [|//|H1 [H2 [H3 [H4 [H5 [H6 [H7 H8]]]]]]] := @same_ok N [:: "a"%string] nil 1 _ _.
  by repeat constructor; cbn.
have Es : List.length (scored (RLA 2 1) (ex1 N)) = (N - 1)%coq_nat.
  by rewrite /scored H4 /tsN; case: (N) => [|k'] //=; rewrite List.map_length List.seq_length; nlia.
have Ew : (1 <= eff N (Some k))%coq_nat /\ (eff N (Some k) <= N - 1)%coq_nat by rewrite /eff; case: (k) => [|k']; nlia.
have Ef : eff (List.length (forecast_times (RLA 2 1) (ex1 N))) (Some k) = eff N (Some k) by rewrite H5.
have HN' : (2 <= List.length (forecast_times (RLA 2 (List.length (ex1 N))) (ex1 N)))%coq_nat by rewrite H5.
have Hv : valid_times (RLA 2 (List.length (ex1 N))) (ex1 N) None by [].
have Hq : forall i, List.In i (positions (scored (RLA 2 1) (ex1 N)) (eff (List.length (forecast_times (RLA 2 1) (ex1 N))) (Some k)) None) ->
  spd (quad (RLA 2 1) (ex1 N) None (ex0r N) (window_at (RLA 2 1) (ex1 N) (eff (List.length (forecast_times (RLA 2 1) (ex1 N))) (Some k)) i) : 'M[R]_1).
  rewrite Ef => i Hi. apply: ex1_quad; move: Hi; rewrite /positions Es => /List.in_seq; move: (eff N (Some k)) Ew => e Ew He; nlia.
have := @healthy_best 2 (ex1 N) None (ex0r N) H1 H3 H2 I H6 H7 HN' (Some k) None Hv Hq best (@best_opt 2 1) (@best_total 2 1).
case=> c' [items [G1 [G2 [G3 G4]]]]. exists c', items. do 3 split=> //.
rewrite G3 Ef /positions List.seq_length Es. move: (eff N (Some k)) Ew => e Ew; nlia.
Qed.
