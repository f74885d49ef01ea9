(** * Stability of the combination under small changes of its data: whole runs (C143). *)
From Coq Require Import Reals Lra ZArith String List Lia Psatz.
Set Warnings "-notation-overridden,-ambiguous-paths".
From mathcomp Require Import all_ssreflect all_algebra.
From Verif Require Import RStruct MatR Spec Num Py ListFacts Combination SpecComb CombFacts CombBuild CombSolve CombRun CombProps CombItems RealLA SpecCombR CombReal CombObj CombOpt CombExact CombExist CombOk SpecNear CombBest EmFacts CombNear SpecStable StableTop CombStable1 CombStable.
Set Implicit Arguments.
Unset Strict Implicit.
Unset Printing Implicit Defensive.
Import GRing.Theory.
Local Open Scope ring_scope.
Delimit Scope R_scope with re.

Section Run.
  Context (n : nat) (s0 : covs n) (m0 : option (mus n)) (r0 : rets n).
  Let K := List.length s0.
  Let LA := RLA n K.
  Context (c : comb LA).
  Hypothesis Hd : dicts s0.
  Hypothesis Hc : from_sigmas LA s0 r0 m0 = Ok c.
  Hypothesis Hy : all_sym s0.
  Let Hinv := from_sigmas_inv LA s0 r0 m0 c Hd Hc.
  Local Notation ft := (forecast_times LA s0).
  Local Notation Nd := (Nd s0 m0 r0).
  Local Notation LA' x := (RLA n (List.length x.1.1)).

  Definition objK K' (x : data n) (pairs : list (Z * Z)) (w : list R) : R :=
    \sum_(st <- pairs) \sum_(i < n) ln (avg_factor K' (fac x.1.1 st.1) w i i) - (/ 2)%re * qf (QK s0 K' x pairs) (wvec K' w).
  Lemma obj_eq (x : data n) pairs P w : (0 < List.length x.1.1)%N ->
    l_cholK (LA' x) (pairs_quad (LA' x) x.1.1 x.1.2 x.2 pairs) = Some P ->
    objective (n := n) (K := List.length x.1.1) (rows_of (n := n) (K := List.length x.1.1) (pairs_diag (LA' x) x.1.1 pairs, P)) (pairs_diag (LA' x) x.1.1 pairs, P) w
    = objK (List.length x.1.1) x pairs w.
  Proof.
    move=> HK HP. rewrite /objective rows_of_pairs // pairs_diag_rows /=.
    have [_ [_ E]] := chol_is_chol (quad_sym x.1.1 x.1.2 x.2 pairs) HP. rewrite /objK -(pairs_quad_closed s0). congr (_ - _ * _).
    by rewrite -E /qf /nsq trmx_mul trmxK !mulmxA.
  Qed.

  (** The forecast depends continuously on the data and the weights together. *)
  Definition N2 (w0 : list R) (e : R) (y : data n * list R) : Prop := Nd e y.1 /\ feasible K y.2 /\ close K w0 e y.2.
  Lemma N2_le w0 e e' y : (e <= e')%re -> N2 w0 e y -> N2 w0 e' y.
  Proof. move=> He [H1 [H2 H3]]. split; first exact: Nd_le H1. split=> //. exact: close_le H3. Qed.
  Lemma ct_pull m p w0 (f : data n -> 'M[R]_(m, p)) A : ct Nd f A -> ct (N2 w0) (fun y => f y.1) A.
  Proof. move=> H d Hdd. have [e [He E]] := H d Hdd. exists e. split=> // y [Hn _]. exact: E. Qed.
  Lemma ct_w w0 k : (k < K)%N -> ctR (N2 w0) (fun y => nth 0 y.2 k) (nth 0 w0 k).
  Proof. move=> Hk d Hdd. exists d. split=> // y [_ [_ H]]. exact: H. Qed.

  Lemma stable_result t w0 r d : (0 < d)%re -> List.In t ft -> feasible K w0 -> combined LA s0 m0 t w0 = Some r ->
    exists e, (0 < e)%re /\ forall x w r', Nd e x -> feasible K w -> close K w0 e w ->
      combined (LA' x) x.1.1 x.1.2 t w = Some r' -> results_near d r r'.
  Proof.
    move=> Hdd Ht F0 Er. case: (Hinv) => Hsm [Hfe _]. have Hfac := fac_spec Hd Hsm Hfe Hy Ht.
    set L0 := avg_factor K (fac s0 t) w0. set N0 := avg_nu K (fac s0 t) (fun k => mean_of m0 s0 k t) w0.
    have U0 : L0 \in unitmx.
      apply: avg_unit => //; first by move=> k Hk; case: (Hfac k Hk) => S [_ [_ []]]. by move=> k i Hk; case: (Hfac k Hk) => S [_ [_ [_ []]]].
    have CL : ct (N2 w0) (fun y => avg_factor K (fac y.1.1.1 t) y.2) L0.
      apply: (ct_sum_ord (@N2_le w0)) => k. apply: (ct_scale (@N2_le w0)); first exact: ct_w. exact: ct_pull (ct_fac Hd Hc Hy (ltn_ord k) Ht).
    have CN : ct (N2 w0) (fun y => avg_nu K (fac y.1.1.1 t) (fun k => mean_of y.1.1.2 y.1.1.1 k t) y.2) N0.
      apply: (ct_sum_ord (@N2_le w0)) => k. apply: (ct_scale (@N2_le w0)); first exact: ct_w.
      apply: (ct_mul (@N2_le w0)); first exact: ct_tr (ct_pull _ (ct_fac Hd Hc Hy (ltn_ord k) Ht)). exact: ct_pull (@ct_mean n s0 m0 r0 k t).
    have UU : L0 *m L0^T \in unitmx by rewrite unitmx_mul unitmx_tr U0.
    have UT : L0^T \in unitmx by rewrite unitmx_tr.
    have CS := ct_inv (@N2_le w0) UU (ct_mul (@N2_le w0) CL (ct_tr CL)).
    have CM := ct_mul (@N2_le w0) (ct_inv (@N2_le w0) UT (ct_tr CL)) CN.
    have [e [He E]] := ev_and (@N2_le w0) (CS d Hdd) (CM d Hdd).
    exists (Rmin d e). split; first exact: Rmin_pos.
    move=> x w r' Hx Fw Hw Er'. have HN : N2 w0 e (x, w).
      split; first exact: Nd_le (Rmin_r _ _) Hx. split=> //. exact: close_le (Rmin_r _ _) Hw.
    have [A1 A2] := E _ HN. have EK := st_len Hx. have Hw0 := close_le (Rmin_l _ _) Hw.
    have S0 : size w0 = K by case: F0. have S1 : size w = List.length x.1.1 by rewrite EK; case: Fw.
    move: Er Er'. rewrite (combined_real m0 t S0) (combined_real x.1.2 t S1). cbv zeta. rewrite -/L0 -/N0 U0.
    have EL : avg_factor (List.length x.1.1) (fac x.1.1 t) w = avg_factor K (fac x.1.1 t) w by rewrite EK.
    have EN : avg_nu (List.length x.1.1) (fac x.1.1 t) (fun k => mean_of x.1.2 x.1.1 k t) w = avg_nu K (fac x.1.1 t) (fun k => mean_of x.1.2 x.1.1 k t) w by rewrite EK.
    rewrite EL EN. case: ifP => // _ [<-] [<-]. move: A1 A2 => /= A1 A2. split=> //=. split; first exact: Hw0. split.
    - move=> i. apply: Rle_trans A2. have := mnorm_entry (invmx (avg_factor K (fac x.1.1 t) w)^T *m avg_nu K (fac x.1.1 t) (fun k => mean_of x.1.2 x.1.1 k t) w - invmx L0^T *m N0) i 0.
      by rewrite [fun_of_matrix (GRing.add _ _) _ _]mxE [fun_of_matrix (GRing.opp _) _ _]mxE.
    - move=> i j. apply: Rle_trans A1. have := mnorm_entry (invmx (avg_factor K (fac x.1.1 t) w *m (avg_factor K (fac x.1.1 t) w)^T) - invmx (L0 *m L0^T)) i j.
      by rewrite [fun_of_matrix (GRing.add _ _) _ _]mxE [fun_of_matrix (GRing.opp _) _ _]mxE.
  Qed.

  (** Positive definiteness of the window's quadratic term. *)
  Lemma ev_quad pairs : (forall st, List.In st pairs -> List.In st.1 ft) -> spd (pairs_quad LA s0 m0 r0 pairs : 'M[R]_K) ->
    ev Nd (fun x => spd (pairs_quad (LA' x) x.1.1 x.1.2 x.2 pairs : 'M[R]_(List.length x.1.1))).
  Proof.
    move=> Hp Hspd. have HQ := ct_QK Hd Hc Hy Hp. have [L HL] := chol_complete Hspd.
    have E0 : QK s0 K (s0, m0, r0) pairs = pairs_quad LA s0 m0 r0 pairs by rewrite -(pairs_quad_closed s0 (s0, m0, r0)).
    rewrite E0 in HQ. have [H1 _] := ct_chol (@Nd_le n s0 m0 r0) HQ HL.
    have HX : ev Nd (fun x => exists e, Nd e x) by exists 1%re; split; [lra|move=> x Hx; exists 1%re].
    have := ev_and (@Nd_le n s0 m0 r0) HX H1. apply: ev_imp => x [[e Hx] Hch].
    rewrite (pairs_quad_closed s0). have := quad_sym x.1.1 x.1.2 x.2 pairs. rewrite (pairs_quad_closed s0) (st_len Hx) => Hs.
    case E: (chol _) Hch => [L'|] // _. apply: is_chol_spd. exact: chol_is_chol E.
  Qed.

  (** The optimal weights of a nearby problem are nearly optimal. *)
  Lemma stable_weights pairs p w1 e : (0 < e)%re -> (forall s u, List.In (s, u) pairs -> consecutive ft s u) ->
    fst p = pairs_diag LA s0 pairs -> l_cholK LA (pairs_quad LA s0 m0 r0 pairs) = Some (snd p) -> optimal (n := n) (K := K) p w1 ->
    ev Nd (fun x => forall p' w2, fst p' = pairs_diag (LA' x) x.1.1 pairs -> l_cholK (LA' x) (pairs_quad (LA' x) x.1.1 x.1.2 x.2 pairs) = Some (snd p') ->
      optimal (n := n) (K := List.length x.1.1) p' w2 -> feasible K w2 /\ close K w1 e w2).
  Proof.
    move=> He Hp E1 E2 O1. have [eps [Hep En]] := near_close Hd Hc Hy He Hp E1 E2 O1.
    have Hin : forall st, List.In st pairs -> List.In st.1 ft by move=> [s u] H; have [H1 _] := consecutive_in _ _ _ (Hp _ _ H).
    have Hh : (0 < eps / 2)%re by lra. have HU := uc_obj Hd Hc Hy Hin Hh.
    have HX : ev Nd (fun x => exists e, Nd e x) by exists 1%re; split; [lra|move=> x Hx; exists 1%re].
    have := ev_and (@Nd_le n s0 m0 r0) HX HU. apply: ev_imp => x [[e' Hx] HU'] p' w2 E1' E2' [F2 O2].
    have EK := st_len Hx. have F2' : feasible K w2 by rewrite /K -(st_len Hx). split=> //. apply: En. split=> // w' Fw'.
    have HK : (0 < K)%N.
      rewrite lt0n; apply/eqP; rewrite /K => E. case: Fw' => _ [_]; rewrite E big_ord0; toR => ?; lra.
    have HK' : (0 < List.length x.1.1)%N by rewrite EK.
    have Ep : p = (pairs_diag LA s0 pairs, snd p) by rewrite -E1; case: (p).
    have Ep' : p' = (pairs_diag (LA' x) x.1.1 pairs, snd p') by rewrite -E1'; case: (p').
    have G : forall w, objective (rows_of p) p w = obj s0 (s0, m0, r0) pairs w.
      move=> w. rewrite Ep. exact: (obj_eq (x := (s0, m0, r0)) w HK E2).
    have G' : forall w, objective (rows_of p') p' w = obj s0 x pairs w.
      move=> w. rewrite Ep' (obj_eq w HK' E2') /objK EK. done.
    have Fw2 : feasible (List.length x.1.1) w' by rewrite EK. have := O2 w' Fw2. rewrite !G !G'.
    have ABS : forall u v d, (Rabs (u - v) <= d)%re -> (u <= v + d /\ v <= u + d)%re.
      move=> u v d H. have := Rle_abs (u - v). have := Rle_abs (- (u - v)). rewrite Rabs_Ropp. lra.
    have := ABS _ _ _ (HU' w' Fw'). have := ABS _ _ _ (HU' w2 F2'). move: (obj _ _ _ _) (obj _ _ _ _) (obj _ _ _ _) (obj _ _ _ _) => a b a' b'.
    move=> H1 H2 H3. lra.
  Qed.

  Hypothesis Hi : increasing ft.

  Theorem stable_run slv window times items d : (0 < d)%re -> returns_optimal slv -> solve LA slv c window times = (items, None) ->
    exists e, (0 < e)%re /\ forall s m r, near_dicts e s0 s -> near_means e m0 m -> near_entries (n := 1) e r0 r -> all_sym s ->
      exists c', from_sigmas (RLA n (List.length s)) s r m = Ok c' /\
      forall slv', returns_optimal slv' -> exists items', solve (RLA n (List.length s)) slv' c' window times = (items', None) /\
        List.length items' = List.length items /\
        forall j x x', List.nth_error items j = Some (Some x) -> List.nth_error items' j = Some (Some x') -> results_near d x x'.
  Proof.
    move=> Hdd Ho Hs. have [Hlen [Hpos Hrun]] := solve_run LA _ _ _ _ _ _ _ _ Hd Hc Hi Hs.
    set w := eff (List.length ft) window in Hlen Hpos Hrun.
    set l := positions (scored LA s0) w times in Hlen Hpos Hrun.
    case: (Hinv) => Hsm [Hfe [Hmo Ec]].
    have [todo Ep] : exists todo, prepare LA c window times = Ok todo by move: Hs; rewrite /solve; case: (prepare _ _ _ _) => [todo|] //; exists todo.
    rewrite Ec in Ep. have [Hr [Hl [_ [El _]]]] := prepare_posed LA _ _ _ _ _ _ Hd Hi Ep. have Hv := prepare_valid LA _ _ _ _ _ _ Hd Hr Ep.
    have Hpin : forall i st, List.In st (pairs_at LA s0 w i) -> List.In st.1 ft.
      move=> i [s u] H. have [H1 _] := consecutive_in _ _ _ (pairs_at_consecutive LA s0 w i s u Hd H). done.
    have Hposed : forall i, List.In i l -> exists p, posed LA s0 m0 r0 w i = Ok (List.nth i (scored LA s0) Z0, p).
      move=> i Hil. have [j Hj] := List.In_nth_error _ _ Hil. have [h [p [Hp _]]] := Hrun j i Hj. by exists p.
    have Q : ev Nd (fun x => forall i, List.In i l -> spd (pairs_quad (LA' x) x.1.1 x.1.2 x.2 (pairs_at LA s0 w i) : 'M[R]_(List.length x.1.1))).
      apply: (ev_list (@Nd_le n s0 m0 r0)) => i Hil. apply: ev_quad; first exact: Hpin.
      have [p Hp] := Hposed i Hil. have [_ [_ E2]] := posed_at LA _ _ _ _ _ _ _ Hp.
      apply: is_chol_spd. exact: chol_is_chol (quad_sym s0 m0 r0 _) E2.
    have W : ev Nd (fun x => forall j, List.In j (List.seq 0 (List.length items)) -> forall i r,
        List.nth_error l j = Some i -> List.nth_error items j = Some (Some r) -> forall p' w2 r',
        fst p' = pairs_diag (LA' x) x.1.1 (pairs_at LA s0 w i) -> l_cholK (LA' x) (pairs_quad (LA' x) x.1.1 x.1.2 x.2 (pairs_at LA s0 w i)) = Some (snd p') ->
        optimal (n := n) (K := List.length x.1.1) p' w2 -> combined (LA' x) x.1.1 x.1.2 (List.nth i (scored LA s0) Z0) w2 = Some r' -> results_near d r r').
      apply: (ev_list (@Nd_le n s0 m0 r0)) => j Hj. case Elj: (List.nth_error l j) => [i|]; last by apply: ev_true.
      have [h [p [Hp Hm]]] := Hrun j i Elj. case Ex: (slv h p) Hm => [x|] Hm; last by apply: ev_true => x i' r' _; rewrite Hm.
      case: Hm => r [Hr' Hit]. have Hox := Ho _ _ _ Ex. have Fx := proj1 Hox.
      have Ht : List.In (List.nth i (scored LA s0) Z0) ft.
        apply: scored_incl. apply: List.nth_In. have := Hpos i (List.nth_error_In _ _ Elj). case. done.
      have [e [He0 Ecc]] := stable_result Hdd Ht Fx Hr'.
      have [_ [E1 E2]] := posed_at LA _ _ _ _ _ _ _ Hp.
      have HW := stable_weights He0 (fun s u H => pairs_at_consecutive LA s0 w i s u Hd H) E1 E2 Hox.
      have HX : ev Nd (fun y => Nd e y) by exists e.
      have := ev_and (@Nd_le n s0 m0 r0) HX HW. apply: ev_imp => y [Hy1 Hy2] i' r1 [Ei]. rewrite Hit -Ei => -[<-] p' w2 r' G1 G2 G3 G4.
      have [F2 C2] := Hy2 p' w2 G1 G2 G3. exact: Ecc Hy1 F2 C2 G4.
    have [e [He E]] := ev_and (@Nd_le n s0 m0 r0) (ev_and (@Nd_le n s0 m0 r0) Q W) (ev_spd Hd Hc Hy).
    exists e. split=> // s m r H1 H2 H3 H4. have Hx : Nd e (s, m, r) by [].
    have [[Qx Wx] Sx] := E _ Hx. move: Qx Wx Sx => /= Qx Wx Sx.
    have Hd' := st_dicts Hx Hd. have Hst' : same_times (RLA n (List.length s)) s := st_same Hx Hsm. have Hm' : means_ok (RLA n (List.length s)) s m := st_means_ok Hx _ Hmo. have Hr' : returns_known (RLA n (List.length s)) s r := st_returns Hx Hr.
    have Eft := st_times Hx (List.length s) K. move: Hd' Hst' Hm' Hr' Eft => /= Hd' Hst' Hm' Hr' Eft.
    have [c' Hc'] := @healthy_build n s m r Hd' Hst' Sx Hm'. exists c'. split=> // slv' Ho'.
    have Esc : scored (RLA n (List.length s)) s = scored LA s0 by rewrite /scored Eft.
    have Epa : forall i, pairs_at (RLA n (List.length s)) s w i = pairs_at LA s0 w i by move=> i; rewrite /pairs_at /window_at Esc Eft.
    have Hi' : increasing (forecast_times (RLA n (List.length s)) s) by rewrite Eft.
    have Hl' : (2 <= List.length (forecast_times (RLA n (List.length s)) s))%coq_nat by rewrite Eft.
    have Hv' : valid_times (RLA n (List.length s)) s times by move=> ts Ets; rewrite Esc; exact: Hv Ets.
    have Hq' : forall i, List.In i (positions (scored (RLA n (List.length s)) s) (eff (List.length (forecast_times (RLA n (List.length s)) s)) window) times) ->
        spd (quad (RLA n (List.length s)) s m r (window_at (RLA n (List.length s)) s (eff (List.length (forecast_times (RLA n (List.length s)) s)) window) i) : 'M[R]_(List.length s)).
      move=> i. rewrite Esc Eft -/w -/l quad_pairs_at Epa => Hil. exact: Qx.
    have [c2 [items' [Hc2 [Hs' _]]]] := @healthy_run n s m r Hd' Hst' Sx Hm' Hi' Hr' Hl' window times Hv' Hq' slv' (fun h p x H => proj1 (Ho' h p x H)).
    move: Hc2. rewrite Hc' => -[Ecc]. rewrite -Ecc in Hs'. exists items'. split=> //.
    have [Hlen' [_ Hrun']] := solve_run (RLA n (List.length s)) _ _ _ _ _ _ _ _ Hd' Hc' Hi' Hs'.
    move: Hlen' Hrun'. rewrite Esc Eft -/w -/l => Hlen' Hrun'.
    split; first by rewrite Hlen'; exact: Logic.eq_sym Hlen. move=> j x x' Hj Hj'.
    case Elj: (List.nth_error l j) => [i|]; last first.
      have := List.nth_error_None l j => -[H _]. have Hge := H Elj. have : List.nth_error items j = None by apply/List.nth_error_None; rewrite Hlen. by rewrite Hj.
    have [h [p [Hp Hm]]] := Hrun' j i Elj. case Ex: (slv' h p) Hm => [w2|]; last by rewrite Hj'.
    case=> r1 [Hr1]. rewrite Hj' => -[Er]; subst r1.
    have [_ [E1 E2]] := posed_at (RLA n (List.length s)) _ _ _ _ _ _ _ Hp. rewrite Epa in E1 E2.
    apply: (Wx j _ i x Elj Hj p w2 x') => //; last exact: Ho' Ex. apply/List.in_seq. split; first lia. apply/List.nth_error_Some. by rewrite Hj.
  Qed.
End Run.
