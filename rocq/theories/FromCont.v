(** * C144: from_ewmas(...).solve(...) is continuous in the returns. *)
From Coq Require Import Reals Lra ZArith String List Lia.
Set Warnings "-notation-overridden,-ambiguous-paths".
From mathcomp Require Import all_ssreflect all_algebra.
From Verif Require Import RStruct MatR Spec Num Py ListFacts Ewma EwmaTot SpecEwma EwmaProps Combination SpecComb CombFacts CombBuild CombProps EwmaAny FromEwmas SpecFrom FromEwmasProps RealLA SpecCombR CombExact SpecRank SpecRankR FromRank SpecFromR FromRun FromUnits SpecCont FromCont1 SpecStable StableTop CombStable1 CombStable CombStableRun.
Set Implicit Arguments.
Unset Strict Implicit.
Unset Printing Implicit Defensive.
Import GRing.Theory.
Local Open Scope ring_scope.
Delimit Scope R_scope with re.

Lemma near_of (P : IEWMA (N := XR) -> IEWMA (N := XR) -> Prop) outs outs' : List.map (@itime XR) outs' = List.map (@itime XR) outs ->
  (forall m o o', List.nth_error outs m = Some o -> List.nth_error outs' m = Some o' -> P o o') ->
  List.Forall2 (fun o o' => itime o' = itime o /\ P o o') outs outs'.
Proof.
elim: outs outs' => [|o l IH] [|o' l'] //= E H. case: E => E1 E2. constructor.
  split=> //. exact: (H O).
apply: IH => // m a b Ha Hb. exact: (H (S m)).
Qed.

Lemma f2_imp A B (P Q : A -> B -> Prop) l l' : List.Forall2 P l l' -> (forall a b, P a b -> Q a b) -> List.Forall2 Q l l'.
Proof. by move=> H HI; elim: H => [|a b k k' H _ IH]; constructor=> //; exact: HI. Qed.

(** C143 for a number of experts given in another form. *)
Lemma cont_K n (sigmas : covs n) K (EK : K = List.length sigmas) means (returns : rets n) (c : comb (RLA n K)) slv window times items d :
  dicts sigmas -> from_sigmas (RLA n K) sigmas returns means = Ok c -> all_sym sigmas -> increasing (forecast_times (RLA n K) sigmas) ->
  (0 < d)%re -> returns_optimal slv -> solve (RLA n K) slv c window times = (items, None) ->
  exists e, (0 < e)%re /\ forall s m r, near_dicts e sigmas s -> near_means e means m -> near_entries (n := 1) e returns r -> all_sym s ->
    exists c', from_sigmas (RLA n K) s r m = Ok c' /\
    forall slv', returns_optimal slv' -> exists items', solve (RLA n K) slv' c' window times = (items', None) /\
      List.length items' = List.length items /\
      forall j x x', List.nth_error items j = Some (Some x) -> List.nth_error items' j = Some (Some x') -> results_near d x x'.
Proof.
subst K => H1 H2 H3 H4 H5 H6 H7. have [e [He H]] := stable_run H1 H2 H3 H4 H5 H6 H7. exists e. split=> // s m r A1 A2 A3 A4.
have E : List.length s = List.length sigmas by exact: f2_len A1. have := H s m r A1 A2 A3 A4. by rewrite E.
Qed.

Section From.
  Context (label : option xr * option xr -> string) (returns : frame (N := XR) time) (x : nat -> nat -> R) (pairs : list (option xr * option xr)) (mpv mpc : nat).
  Let n := List.length (fcols returns).
  Let T := List.length (findex returns).
  Context (K : nat).
  Hypothesis HK : List.length (firsts (List.map label pairs)) = K.
  Context (to_mat : frame (N := XR) string -> 'M[R]_n) (to_vec : list xr -> 'cV[R]_n).
  Notation LA := (RLA n K).
  Notation comb_of h := (from_ewmas (N := XR) LA label to_mat to_vec h pairs mpv mpc None false).
  Notation run p h := (iterated_ewma (pair_params (N := XR) mpv mpc None false p) h).
  Hypothesis Hr : reads_matrix n to_mat.
  Hypothesis Hrv : reads_vector n to_vec.
  Hypothesis Hv : valid_returns returns.
  Hypothesis Hx : returns_are false returns x.
  Hypothesis Hp : positive_halflives pairs.
  Hypothesis HT : (first_pos mpv + first_pos mpc < T)%coq_nat.
  Hypothesis Hm : moving x n mpv mpc.

  Lemma near_expert d outs outs' : items_within returns mpv mpc d outs outs' -> (0 <= d)%re ->
    near_entries d (expert_covs (N := XR) LA to_mat outs : list (Z * 'M[R]_n)) (expert_covs (N := XR) LA to_mat outs') /\
    near_entries (n := 1) d (expert_means (N := XR) LA to_vec outs) (expert_means (N := XR) LA to_vec outs').
  Proof.
  move=> [_ [Et Hi]] Hd. have := near_of Et Hi. elim=> [|o o' l l' [E H] _ [I1 I2]]; first by split; constructor.
  have N1 : nan_free_item n o by move=> a b Ha Hb; have [_ [_ G]] := H a Ha; have [u [u' [-> _]]] := G b Hb; exists u.
  have N2 : nan_free_item n o' by move=> a b Ha Hb; have [_ [_ G]] := H a Ha; have [u [u' [_ [-> _]]]] := G b Hb; exists u'.
  split; constructor=> //; split=> // i j.
    rewrite /= !Hr //. have [_ [_ G]] := H i (ltP (ltn_ord i)). have [u [u' [-> [-> B]]]] := G j (ltP (ltn_ord j)). by rewrite Rabs_minus_sym.
  rewrite (ord1 j) /= !Hrv.
  - have [E1 [E2 _]] := H i (ltP (ltn_ord i)). move: E1 E2. rewrite /SpecEwma.mean_at => -> ->. by rewrite /= Rminus_diag_eq // Rabs_R0.
  - move=> a Ha. have [E1 _] := H a Ha. by exists 0%re.
  - move=> a Ha. have [_ [E1 _]] := H a Ha. by exists 0%re.
  Qed.

  Lemma near_rows d g y : like returns g y -> returns_near d n T x y ->
    near_entries (n := 1) d (rows_of_frame (N := XR) LA to_vec returns) (rows_of_frame (N := XR) LA to_vec g).
  Proof.
  move=> [Hg [EI [EC Hy]]] HD. rewrite /rows_of_frame EI.
  have L1 : List.length (fvals returns) = T by case: Hv => -[]. have L2 : List.length (fvals g) = T by rewrite /T -EI; case: Hg => -[].
  have N k : (k < T)%coq_nat -> forall i j, (Rabs ((to_vec (List.nth k (fvals g) nil) : 'cV[R]_n) i j - (to_vec (List.nth k (fvals returns) nil) : 'cV[R]_n) i j) <= d)%re.
    move=> Hk i j. rewrite (ord1 j) !Hrv.
    - rewrite -/(entry g k i) -/(entry returns k i). case: (Hx Hk (ltP (ltn_ord i))) => [->|[_ []]] //.
      have Hk' : (k < List.length (findex g))%coq_nat by rewrite EI. have Hi' : (i < List.length (fcols g))%coq_nat by rewrite EC; exact/ltP.
      case: (Hy k i Hk' Hi') => [->|[_ []]] //=. rewrite Rabs_minus_sym. apply: HD => //. exact/ltP.
    - move=> a Ha. case: (Hx Hk Ha) => [E|[_ []]] //. by exists (x a k).
    - move=> a Ha. have Hk' : (k < List.length (findex g))%coq_nat by rewrite EI. have Ha' : (a < List.length (fcols g))%coq_nat by rewrite EC.
      case: (Hy k a Hk' Ha') => [E|[_ []]] //. by exists (y a k).
  have EI' : List.length (findex returns) = T by []. move: L1 L2 N EI'. move: (findex returns) (fvals returns) (fvals g) => ix a b. move: T => T'.
  elim: T' ix a b => [|T' IH] [|t ix] [|u a] [|v b] //= L1 L2 N L3; first by constructor.
  constructor; first by split=> //; exact: (N O (PeanoNat.Nat.lt_0_succ _)).
  have N' k : (k < T')%coq_nat -> forall i j, (Rabs ((to_vec (List.nth k b nil) : 'cV[R]_n) i j - (to_vec (List.nth k a nil) : 'cV[R]_n) i j) <= d)%re by move=> Hk; apply: (N (S k)); lia.
  case: L1 => L1. case: L2 => L2. case: L3 => L3. exact: (IH ix a b L1 L2 N' L3).
  Qed.

  Lemma issued_sym g y sigmas outs : valid_returns g -> List.length (fcols g) = n -> returns_are false g y -> List.NoDup (List.map fst sigmas) ->
    (forall p, List.In p pairs -> run p g = Ok (outs p) /\ forall o, List.In o (outs p) -> nan_free_item n o) ->
    (forall k, dict_get String.eqb sigmas k = last_value (List.map (fun p => (label p, expert_covs (N := XR) LA to_mat (outs p))) pairs) k) -> all_sym sigmas.
  Proof.
  move=> Hg En Hy ND Ho A1 [k dd] tS Hin Hin2. have Eg : dict_get String.eqb sigmas k = Some dd by apply: kget_in.
  move: Eg; rewrite A1 => Eg'. move: (last_value_in _ _ _ Eg'). rewrite List.in_map_iff => -[p [[_ Ed] Hpin]]. rewrite -Ed in Hin2.
  move: Hin2; rewrite /= List.in_map_iff => -[o [<- Hoin]] /=. have [Ep Hf] := Ho p Hpin.
  have Hcl : clip_is None None by left.
  apply: (item_sym Hr); last exact: Hf. have := @run_sym g y pairs mpv mpc None None false Hg (like_true g y Hy) Hp Hcl p (outs p) o Hpin Ep Hoin. by rewrite En.
  Qed.

  Theorem run_cont (c : comb LA) slv window times items d :
    (0 < d)%re -> returns_optimal slv -> comb_of returns = Ok c -> solve LA slv c window times = (items, None) ->
    exists e, (0 < e)%re /\ forall g y, like returns g y -> returns_near e n T x y ->
      exists c', comb_of g = Ok c' /\ forall slv', returns_optimal slv' -> exists items', solve LA slv' c' window times = (items', None) /\
        List.length items' = List.length items /\
        forall j r r', List.nth_error items j = Some (Some r) -> List.nth_error items' j = Some (Some r') -> results_near d r r'.
  Proof.
  move=> Hd Ho Hc Hrun. have [outs Er] := runs_of _ _ _ _ _ _ _ _ _ _ _ Hc.
  have Hwf : List.length (findex returns) = List.length (fvals returns) by case: Hv => -[].
  have Hinc : increasing (findex returns) by case: Hv => _ [].
  have [sigmas [means [E [K1 [K2 [D1 [D2 [A1 [A2 _]]]]]]]]] := @is_from_sigmas XR LA label to_mat to_vec returns pairs mpv mpc None false outs nan_xr Hwf (increasing_NoDup _ Hinc) Er.
  rewrite Hc in E. have EK : K = List.length sigmas by rewrite -HK -K1 List.map_length.
  have [e0 [He0 H0]] := all_cont _ _ _ _ Hv Hx HT Hm pairs 1%re Hp Rlt_0_1.
  have Nf p : List.In p pairs -> run p returns = Ok (outs p) /\ forall o, List.In o (outs p) -> nan_free_item n o.
    move=> Hin. split; first exact: Er. have near : returns_near e0 n T x x by move=> j k _ _; rewrite Rminus_diag_eq // Rabs_R0; lra.
    have [o1 [o2 [R1 [R2 W]]]] := H0 returns x (conj Hv (conj erefl (conj erefl Hx))) near p Hin.
    rewrite Er // in R1 R2. case: R1 => R1. case: R2 => R2. subst o1 o2. case: W => _ [_ W] o Hoin a b Ha Hb.
    have [m Hmm] := List.In_nth_error _ _ Hoin. have [_ [_ G]] := W m o o Hmm Hmm a Ha. have [u [_ [-> _]]] := G b Hb. by exists u.
  have Hsy : all_sym sigmas by apply: (issued_sym Hv erefl Hx _ Nf A1); case: D1.
  have Hif : increasing (forecast_times LA sigmas).
    case: (sigmas) D1 A1 => [//|[k dd] ss] D1 A1 /=. have Eg : dict_get String.eqb ((k, dd) :: ss) k = Some dd by rewrite /= String.eqb_refl.
    move: Eg; rewrite A1 => Eg'. move: (last_value_in _ _ _ Eg'). rewrite List.in_map_iff => -[p [[_ <-] Hpin]].
    rewrite /expert_covs List.map_map /=. by case: (times_sub _ _ _ nan_xr Hwf Hinc (Er p Hpin)).
  have [e1 [He1 H1]] := cont_K EK D1 (esym E) Hsy Hif Hd Ho Hrun.
  have [e2 [He2 H2]] := all_cont _ _ _ _ Hv Hx HT Hm pairs e1 Hp He1.
  exists (Rmin e1 e2). split; first exact: Rmin_glb_lt. move=> g y Lg Hy.
  have Hy2 : returns_near e2 n T x y by move=> j k Hj Hk; apply: Rle_trans (Hy j k Hj Hk) (Rmin_r _ _).
  have Hy1 : returns_near e1 n T x y by move=> j k Hj Hk; apply: Rle_trans (Hy j k Hj Hk) (Rmin_l _ _).
  have {}H2 := H2 g y Lg Hy2. have [Hg [EI [EC Hyy]]] := Lg.
  pose outs' p := match run p g with Ok o => o | Raise _ => nil end.
  have Er' p : List.In p pairs -> run p g = Ok (outs' p) /\ items_within returns mpv mpc e1 (outs p) (outs' p).
    move=> Hin. have [o1 [o2 [R1 [R2 W]]]] := H2 p Hin. rewrite /outs' R2. split=> //. rewrite Er // in R1. by case: R1 => ->.
  have Hwf' : List.length (findex g) = List.length (fvals g) by case: Hg => -[].
  have Hinc' : increasing (findex g) by case: Hg => _ [].
  have [sigmas' [means' [E' [K1' [K2' [D1' [D2' [A1' [A2' _]]]]]]]]] := @is_from_sigmas XR LA label to_mat to_vec g pairs mpv mpc None false outs' nan_xr Hwf' (increasing_NoDup _ Hinc') (fun p Hin => proj1 (Er' p Hin)).
  have Hle : (0 <= e1)%re by lra.
  have ND : near_dicts e1 (sigmas : covs n) sigmas'.
    have := @values_eq _ _ (fun _ v w => near_entries e1 (v : list (Z * 'M[R]_n)) w) sigmas sigmas' (proj1 D1) (proj1 D1') (etrans K1 (esym K1')).
    have Q k v w : dict_get String.eqb sigmas k = Some v -> dict_get String.eqb sigmas' k = Some w -> near_entries e1 (v : list (Z * 'M[R]_n)) w.
      rewrite A1 A1' => Hv1 Hv2. have [p [P1 [P2 [P3 P4]]]] := last_pair label (fun p => expert_covs (N := XR) LA to_mat (outs p)) (fun p => expert_covs (N := XR) LA to_mat (outs' p)) pairs k v Hv1.
      rewrite P4 in Hv2. case: Hv2 => <-. rewrite P3. by case: (near_expert (proj2 (Er' p P1)) Hle).
    move=> G. exact: (f2_imp (G Q) (fun a b H => conj (esym (proj1 H)) (proj2 H))).
  have NM : near_means e1 (Some means) (Some means').
    have := @values_eq _ _ (fun _ v w => near_entries (n := 1) e1 v w) means means' (proj1 D2) (proj1 D2') (etrans K2 (esym K2')).
    have Q k v w : dict_get String.eqb means k = Some v -> dict_get String.eqb means' k = Some w -> near_entries (n := 1) e1 v w.
      rewrite A2 A2' => Hv1 Hv2. have [p [P1 [P2 [P3 P4]]]] := last_pair label (fun p => expert_means (N := XR) LA to_vec (outs p)) (fun p => expert_means (N := XR) LA to_vec (outs' p)) pairs k v Hv1.
      rewrite P4 in Hv2. case: Hv2 => <-. rewrite P3. by case: (near_expert (proj2 (Er' p P1)) Hle).
    move=> G. exact: (f2_imp (G Q) (fun a b H => conj (esym (proj1 H)) (proj2 H))).
  have Nf' p : List.In p pairs -> run p g = Ok (outs' p) /\ forall o, List.In o (outs' p) -> nan_free_item n o.
    move=> Hin. have [R1 [_ [Et W]]] := Er' p Hin. split=> // o Hoin a b Ha Hb. have [m Hmm] := List.In_nth_error _ _ Hoin.
    have Hl : (m < List.length (outs p))%coq_nat.
      rewrite -(List.map_length (@itime XR)) -Et List.map_length. apply/List.nth_error_Some. by rewrite Hmm.
    case Eo: (List.nth_error (outs p) m) => [o1|]; last by move/List.nth_error_None: Eo; lia.
    have [_ [_ G]] := W m o1 o Eo Hmm a Ha. have [_ [u [_ [-> _]]]] := G b Hb. by exists u.
  have Hsy' : all_sym sigmas' by apply: (issued_sym Hg _ Hyy _ Nf' A1'); [rewrite EC|case: D1'].
  have [c' [Hc' G]] := H1 sigmas' (Some means') _ ND NM (near_rows Lg Hy1) Hsy'.
  exists c'. split; first by rewrite E'. exact: G.
  Qed.
End From.
