(** * Stability of the combination under small changes of its data (C143). *)
From Coq Require Import Reals Lra ZArith String List Lia Psatz.
Set Warnings "-notation-overridden,-ambiguous-paths".
From mathcomp Require Import all_ssreflect all_algebra.
From Verif Require Import RStruct MatR Spec Num Py ListFacts Combination SpecComb CombFacts CombBuild CombSolve CombRun CombProps CombItems RealLA SpecCombR CombReal CombObj CombOpt CombExact CombExist CombOk SpecNear CombBest EmFacts CombNear SpecStable StableTop CombStable1.
Set Implicit Arguments.
Unset Strict Implicit.
Unset Printing Implicit Defensive.
Import GRing.Theory.
Local Open Scope ring_scope.
Delimit Scope R_scope with re.

Lemma near_entries_le m n e e' (a b : list (Z * 'M[R]_(m, n))) : (e <= e')%re -> near_entries e a b -> near_entries e' a b.
Proof. move=> He. apply: f2_impl => x y [H1 H2]. split=> // i j. exact: Rle_trans (H2 i j) He. Qed.
Lemma near_dicts_le m n e e' (a b : list (string * list (Z * 'M[R]_(m, n)))) : (e <= e')%re -> near_dicts e a b -> near_dicts e' a b.
Proof. move=> He. apply: f2_impl => x y [H1 H2]. split=> //. exact: near_entries_le H2. Qed.

Lemma near_keys m n e (a b : list (Z * 'M[R]_(m, n))) : near_entries e a b -> List.map fst b = List.map fst a.
Proof. exact: (keys_near (fun A B : 'M[R]_(m, n) => forall i j, (Rabs (B i j - A i j) <= e)%re)). Qed.
Lemma near_dkeys m n e (a b : list (string * list (Z * 'M[R]_(m, n)))) : near_dicts e a b -> List.map fst b = List.map fst a.
Proof. exact: (keys_near (@near_entries m n e)). Qed.

(** The factor of an expert read off its covariance. *)
Definition fac_of n (S : option 'M[R]_n) : 'M[R]_n :=
  match S with Some Sg => if Sg \in unitmx then ch (invmx Sg) else 0 | None => 0 end.
Lemma fac_eq n (s : covs n) t k : dicts s -> (k < List.length s)%N -> fac s t k = fac_of (cov_of s k t).
Proof.
  move=> Hd Hk. have Hin := expert_in Hk. rewrite /cov_of /fac /factor.
  have -> : dict_get String.eqb s (fst (expert s k)) = Some (snd (expert s k)).
    apply: kget_in; [exact: (proj1 Hd) | by case: (expert s k) Hin].
  rewrite /fac_of. case: (dict_get _ _ _) => [S|] //. rewrite /precision_factor /= /ch. by case: ifP.
Qed.

Section Stable.
  Context (n : nat) (s0 : covs n) (m0 : option (mus n)) (r0 : rets n).
  Let K := List.length s0.
  Let LA := RLA n K.
  Definition data : Type := (covs n * option (mus n) * rets n)%type.
  Definition Nd (e : R) (x : data) : Prop :=
    near_dicts e s0 x.1.1 /\ near_means e m0 x.1.2 /\ near_entries (n := 1) e r0 x.2 /\ all_sym x.1.1.
  Lemma Nd_le e e' x : (e <= e')%re -> Nd e x -> Nd e' x.
  Proof.
    move=> He [H1 [H2 [H3 H4]]]. split; first exact: near_dicts_le H1. split; last by split=> //; exact: near_entries_le H3.
    case: m0 H2 => [a|]; case: (x.1.2) => [b|] //. exact: near_dicts_le.
  Qed.

  Section One.
    Context (e : R) (x : data).
    Hypothesis Hx : Nd e x.
    Hypothesis Hd : dicts s0.
    Let s := x.1.1.
    Lemma st_len : List.length s = K. Proof. case: Hx => H _. exact: f2_len H. Qed.
    Lemma st_expert k : fst (expert s k) = fst (expert s0 k) /\ near_entries e (snd (expert s0 k)) (snd (expert s k)).
    Proof. case: Hx => H _. apply: (nth_near _ _ _ (EmptyString, nil) (EmptyString, nil) k H); last by []. exact: List.Forall2_nil. Qed.
    Lemma st_times K1 K2 : forecast_times (RLA n K1) s = forecast_times (RLA n K2) s0.
    Proof. case: Hx => H _. rewrite /s /forecast_times. case: H => [|a b l l' [E H] _] //. exact: near_keys H. Qed.
    Lemma st_cov k t : match cov_of s0 k t, cov_of s k t with
      | Some A, Some B => forall i j, (Rabs ((B : 'M[R]_n) i j - (A : 'M[R]_n) i j) <= e)%re | None, None => True | _, _ => False end.
    Proof. have [_ H] := st_expert k. exact: (zget_near (fun A B : 'M[R]_n => forall i j, (Rabs (B i j - A i j) <= e)%re) _ _ t H). Qed.
    Lemma st_dicts : dicts s.
    Proof.
      case: Hx => H _. case: Hd => D1 D2. split; first by rewrite (near_dkeys H).
      apply/List.Forall_forall => y Hy. have [z [Hz [_ E]]] := in_near (@near_entries n n e) _ _ _ H Hy. rewrite (near_keys E).
      move/List.Forall_forall: D2. by apply.
    Qed.
    Lemma st_same K1 K2 : same_times (RLA n K2) s0 -> same_times (RLA n K1) s.
    Proof.
      move=> Hs y t Hy. rewrite (st_times K1 K2). case: Hx => H _. have [z [Hz [_ E]]] := in_near (@near_entries n n e) _ _ _ H Hy. rewrite (near_keys E). exact: Hs.
    Qed.
    Lemma st_means_ok K1 K2 : means_ok (RLA n K2) s0 m0 -> means_ok (RLA n K1) s x.1.2.
    Proof.
      case: Hx => H [H2 _]. rewrite /means_ok. case: m0 H2 => [a|]; case: (x.1.2) => [b|] //= Hm Ho y Hy.
      have [z [Hz [E1 E]]] := in_near (@near_entries n n e) _ _ _ H Hy. have [mk [G1 G2]] := Ho z Hz. have := kget_near (@near_entries n 1 e) _ _ (fst y) Hm. rewrite E1 G1.
      case: (dict_get _ b _) => [mk'|] // Hmk. exists mk'. split=> // t. by rewrite (near_keys E) (near_keys Hmk).
    Qed.
    Lemma st_returns K1 K2 : returns_known (RLA n K2) s0 r0 -> returns_known (RLA n K1) s x.2.
    Proof.
      case: Hx => H [_ [H2 _]] Hr t. rewrite /scored (st_times K1 K2) (near_keys H2). exact: Hr.
    Qed.
    Lemma st_mean k t i : (Rabs (mean_of x.1.2 s k t i 0%R - mean_of m0 s0 k t i 0%R) <= Rmax e 0)%re.
    Proof.
      have H0 : forall v : 'cV[R]_n, (Rabs (v i 0%R - v i 0%R) <= Rmax e 0)%re by move=> v; rewrite Rminus_diag_eq // Rabs_R0; exact: Rmax_r.
      case: Hx => _ [H2 _]. rewrite /mean_of (proj1 (st_expert k)). case: m0 H2 => [a|]; case: (x.1.2) => [b|] //= Hm.
      have := kget_near (@near_entries n 1 e) _ _ (fst (expert s0 k)) Hm. case: (dict_get _ a _) => [u|]; case: (dict_get _ b _) => [v|] // Hmk.
      have := zget_near (fun A B : 'cV[R]_n => forall i j, (Rabs (B i j - A i j) <= e)%re) _ _ t Hmk.
      case: (dict_get _ u _) => [p|]; case: (dict_get _ v _) => [q|] // Hq. exact: Rle_trans (Hq i 0) (Rmax_l _ _).
    Qed.
    Lemma st_ret u i : (Rabs ((return_at LA x.2 u : 'cV[R]_n) i 0%R - (return_at LA r0 u : 'cV[R]_n) i 0%R) <= Rmax e 0)%re.
    Proof.
      have H0 : forall v : 'cV[R]_n, (Rabs (v i 0%R - v i 0%R) <= Rmax e 0)%re by move=> v; rewrite Rminus_diag_eq // Rabs_R0; exact: Rmax_r.
      case: Hx => _ [_ [H2 _]]. rewrite /return_at.
      have := zget_near (fun A B : 'cV[R]_n => forall i j, (Rabs (B i j - A i j) <= e)%re) _ _ u H2.
      case: (dict_get _ r0 _) => [p|]; case: (dict_get _ x.2 _) => [q|] // Hq. exact: Rle_trans (Hq i 0) (Rmax_l _ _).
    Qed.
  End One.

  Context (c : comb LA).
  Hypothesis Hd : dicts s0.
  Hypothesis Hc : from_sigmas LA s0 r0 m0 = Ok c.
  Hypothesis Hy : all_sym s0.
  Let Hinv := from_sigmas_inv LA s0 r0 m0 c Hd Hc.
  Local Notation ev := (ev Nd).
  Local Notation ct := (ct Nd).
  Local Notation ft := (forecast_times LA s0).

  Lemma ctR_unif (f : data -> R) y : (forall e x, (0 < e)%re -> Nd e x -> (Rabs (f x - y) <= e)%re) -> ctR Nd f y.
  Proof. move=> H d Hd'. exists d. split=> // x Hx. exact: H. Qed.
  Definition covf (k : nat) (t : Z) (x : data) : 'M[R]_n := if cov_of x.1.1 k t is Some Sg then Sg else 0.
  Lemma ct_cov k t S : cov_of s0 k t = Some S -> ct (covf k t) S.
  Proof.
    move=> E. apply: (ct_mx Nd_le) => i j. apply: ctR_unif => e x He Hx. have := st_cov Hx k t. rewrite E /covf. case: (cov_of _ _ _) => [S'|] //.
  Qed.
  Lemma ct_mean k t : ct (fun x => mean_of x.1.2 x.1.1 k t) (mean_of m0 s0 k t).
  Proof. apply: (ct_mx Nd_le) => i j. apply: ctR_unif => e x He Hx. rewrite !ord1. have := st_mean Hx k t i. by rewrite Rmax_left //; exact: Rlt_le. Qed.
  Lemma ct_ret u : ct (fun x => return_at LA x.2 u : 'cV[R]_n) (return_at LA r0 u).
  Proof. apply: (ct_mx Nd_le) => i j. apply: ctR_unif => e x He Hx. rewrite !ord1. have := st_ret Hx u i. by rewrite Rmax_left //; exact: Rlt_le. Qed.
  Lemma ct_fac k t : (k < K)%N -> List.In t ft -> ct (fun x => fac x.1.1 t k) (fac s0 t k).
  Proof.
    move=> Hk Ht. case: Hinv => Hsm [Hfe _]. have [S [ES [US CS]]] := fac_spec Hd Hsm Hfe Hy Ht Hk.
    have CC := ct_cov ES. have CU := ct_unit US CC. have [_ H2] := ct_chol Nd_le (ct_inv Nd_le US CC) (chol_unique CS).
    apply: (ct_ext Nd_le) H2. have HX : ev (fun x => exists e, Nd e x) by exists 1%re; split; [lra|move=> x Hx; exists 1%re].
    have := ev_and Nd_le HX CU. apply: ev_imp => x [[e Hx] Hu].
    rewrite (fac_eq t (st_dicts Hx Hd)) ?(st_len Hx) //. rewrite /fac_of. move: Hu (st_cov Hx k t). rewrite ES /covf. case: (cov_of _ _ _) => [S'|] // -> _. done.
  Qed.
  (** Near positive definite covariances, all are. *)
  Lemma ev_spd : ev (fun x => all_spd x.1.1).
  Proof.
    case: Hinv => Hsm [Hfe _]. have Hp := factors_spd Hy Hfe.
    have H1 : ev (fun x => forall k : 'I_K, forall t, List.In t ft -> chol (covf k t x) <> None).
      apply: (ev_fin Nd_le) => k. apply: (ev_list Nd_le) => t Ht. have [S [ES _]] := fac_spec Hd Hsm Hfe Hy Ht (ltn_ord k).
      have HS : spd S.
        apply: (Hp (expert s0 k) (t, S)); first exact: expert_in. exact: dict_get_In.
      have [L HL] := chol_complete HS. by have [] := ct_chol Nd_le (ct_cov ES) HL.
    have HX : ev (fun x => exists e, Nd e x) by exists 1%re; split; [lra|move=> x Hx; exists 1%re].
    have := ev_and Nd_le HX H1. apply: ev_imp => x [[e Hx] Hch] ks tS Hks HtS.
    have Hsym : sym (snd tS) by case: (Hx) => _ [_ [_ H]]; exact: H Hks HtS.
    have [k [Hk Ek]] := List.In_nth _ _ (EmptyString, nil) Hks. move/ltP: Hk => Hk. have Hk' : (k < K)%N by rewrite -(st_len Hx).
    have Ht : List.In (fst tS) ft.
      rewrite -(st_times Hx (List.length x.1.1) K). apply/(st_same Hx (K1 := List.length x.1.1) Hsm (fst tS) Hks). exact: List.in_map.
    have Ec : cov_of x.1.1 k (fst tS) = Some (snd tS).
      rewrite /cov_of /expert Ek. apply: dict_get_in; last by case: (tS) HtS.
      case: (st_dicts Hx Hd) => _ /List.Forall_forall. by apply.
    have := Hch (Ordinal Hk') _ Ht. rewrite /covf /= Ec. case E: (chol _) => [L|] // _. apply: is_chol_spd. exact: chol_is_chol E.
  Qed.

  (** The quadratic term in closed form. *)
  Definition sc (x : data) (st : Z * Z) (k : nat) : 'cV[R]_n :=
    (fac x.1.1 st.1 k)^T *m (return_at LA x.2 st.2 : 'cV[R]_n) - (fac x.1.1 st.1 k)^T *m mean_of x.1.2 x.1.1 k st.1.
  Definition colK K' (x : data) (st : Z * Z) : 'M[R]_(n, K') := \matrix_(i, k) sc x st k i 0.
  Definition QK K' (x : data) (pairs : list (Z * Z)) : 'M[R]_K' := \sum_(st <- pairs) (colK K' x st)^T *m colK K' x st.
  Lemma pairs_quad_closed (x : data) pairs :
    pairs_quad (RLA n (List.length x.1.1)) x.1.1 x.1.2 x.2 pairs = QK (List.length x.1.1) x pairs.
  Proof.
    have HS : forall st, (l_colstack (RLA n (List.length x.1.1)) (List.map (fun ks =>
          l_vsub (RLA n (List.length x.1.1)) (l_tmulv (RLA n (List.length x.1.1)) (factor (RLA n (List.length x.1.1)) x.1.1 (fst ks) (fst st)) (return_at (RLA n (List.length x.1.1)) x.2 (snd st)))
                    (l_tmulv (RLA n (List.length x.1.1)) (factor (RLA n (List.length x.1.1)) x.1.1 (fst ks) (fst st)) (mean_at (RLA n (List.length x.1.1)) x.1.2 (fst ks) (fst st)))) x.1.1) : 'M[R]_(n, List.length x.1.1)) = colK (List.length x.1.1) x st.
      move=> st. apply/matrixP => i k. rewrite !mxE.
      rewrite (nth_expert (fun nm => l_vsub (RLA n (List.length x.1.1)) (l_tmulv (RLA n (List.length x.1.1)) (factor (RLA n (List.length x.1.1)) x.1.1 nm (fst st)) (return_at (RLA n (List.length x.1.1)) x.2 (snd st)))
                    (l_tmulv (RLA n (List.length x.1.1)) (factor (RLA n (List.length x.1.1)) x.1.1 nm (fst st)) (mean_at (RLA n (List.length x.1.1)) x.1.2 nm (fst st)))) (0 : 'cV[R]_n)) //.
      by rewrite /= !mxE.
    rewrite /pairs_quad /QK.
    have H : forall l z, List.fold_left (l_addK (RLA n (List.length x.1.1))) (List.map (fun st => l_gram (RLA n (List.length x.1.1)) (l_colstack (RLA n (List.length x.1.1)) (List.map (fun ks =>
          l_vsub (RLA n (List.length x.1.1)) (l_tmulv (RLA n (List.length x.1.1)) (factor (RLA n (List.length x.1.1)) x.1.1 (fst ks) (fst st)) (return_at (RLA n (List.length x.1.1)) x.2 (snd st)))
                    (l_tmulv (RLA n (List.length x.1.1)) (factor (RLA n (List.length x.1.1)) x.1.1 (fst ks) (fst st)) (mean_at (RLA n (List.length x.1.1)) x.1.2 (fst ks) (fst st)))) x.1.1))) l) z
       = z + \sum_(st <- l) (colK (List.length x.1.1) x st)^T *m colK (List.length x.1.1) x st.
      elim=> [|a l IH] z; first by rewrite /= big_nil addr0.
      cbn [List.map List.fold_left]. rewrite IH big_cons addrA. congr (_ + _). cbn [l_addK l_gram RLA]. by rewrite HS.
    by rewrite H add0r.
  Qed.
  Lemma ct_sc st k : (k < K)%N -> List.In st.1 ft -> ct (fun x => sc x st k) (sc (s0, m0, r0) st k).
  Proof.
    move=> Hk Ht. have CF := ct_tr (ct_fac Hk Ht). apply: (ct_add Nd_le).
      exact: (ct_mul Nd_le CF (ct_ret _)). apply: ct_opp. exact: (ct_mul Nd_le CF (ct_mean k st.1)).
  Qed.
  Lemma ct_QK pairs : (forall st, List.In st pairs -> List.In st.1 ft) -> ct (fun x => QK K x pairs) (QK K (s0, m0, r0) pairs).
  Proof.
    move=> H. apply: (ct_sum Nd_le) => st Hst.
    have CC : ct (fun x => colK K x st) (colK K (s0, m0, r0) st).
      apply: (ct_mx Nd_le) => i k. have := ct_entry i 0 (ct_sc (ltn_ord k) (H st Hst)). move=> C d Hdd. have := C d Hdd. apply: ev_imp => x. by rewrite !mxE.
    exact: (ct_mul Nd_le (ct_tr CC) CC).
  Qed.

  (** The objective, uniformly in the weights. *)
  Definition obj (x : data) (pairs : list (Z * Z)) (w : list R) : R :=
    \sum_(st <- pairs) \sum_(i < n) ln (avg_factor K (fac x.1.1 st.1) w i i) - (/ 2)%re * qf (QK K x pairs) (wvec K w).
  Definition uc (f : data -> list R -> R) (g : list R -> R) : Prop :=
    forall d, (0 < d)%re -> ev (fun x => forall w, feasible K w -> (Rabs (f x w - g w) <= d)%re).
  Lemma uc_add f g f' g' : uc f g -> uc f' g' -> uc (fun x w => f x w + f' x w) (fun w => g w + g' w).
  Proof.
    move=> H1 H2 d Hdd. have H3 : (0 < d / 2)%re by lra. have := ev_and Nd_le (H1 _ H3) (H2 _ H3). apply: ev_imp => x [A B] w Fw.
    have := A w Fw. have := B w Fw. move: (f x w) (f' x w) (g w) (g' w) => a b a' b' X Y. toR.
    have -> : (a + b - (a' + b') = (a - a') + (b - b'))%re by ring. have := Rabs_triang (a - a') (b - b'). lra.
  Qed.
  Lemma uc_sum (I : Type) (l : list I) f g : (forall i, List.In i l -> uc (f i) (g i)) -> uc (fun x w => \sum_(i <- l) f i x w) (fun w => \sum_(i <- l) g i w).
  Proof.
    elim: l => [|a l IH] H.
      move=> d Hdd. apply: ev_true => x w _. rewrite !big_nil Rminus_diag_eq // Rabs_R0. lra.
    move=> d Hdd. have := uc_add (H a (or_introl erefl)) (IH (fun b Hb => H b (or_intror Hb))) Hdd. apply: ev_imp => x A w Fw. have := A w Fw. by rewrite !big_cons.
  Qed.
  Lemma wsum_bound w (f : 'I_K -> R) b : feasible K w -> (forall k, (Rabs (f k) <= b)%re) -> (Rabs (\sum_(k < K) nth 0 w k * f k)%R <= b)%re.
  Proof.
    move=> [_ [F0 F1]] Hb. apply: Rle_trans (sum_abs _) _.
    apply: Rle_trans (_ : (\sum_(k < K) nth 0 w k * b)%R <= _)%re.
      apply: sumR_le => k _. toR. rewrite Rabs_mult (Rabs_pos_eq (nth 0 w k)); last exact: F0. apply: Rmult_le_compat_l; [exact: F0|exact: Hb].
    rewrite -big_distrl /= F1. toR. lra.
  Qed.
  Lemma wsum_low w (f : 'I_K -> R) b : feasible K w -> (forall k, (b <= f k)%re) -> (b <= (\sum_(k < K) nth 0 w k * f k)%R)%re.
  Proof.
    move=> [_ [F0 F1]] Hb. apply: Rle_trans (_ : _ <= (\sum_(k < K) nth 0 w k * b)%R)%re _.
      rewrite -big_distrl /= F1. toR. lra.
    apply: sumR_le => k _. toR. apply: Rmult_le_compat_l; [exact: F0|exact: Hb].
  Qed.
  Lemma ln_lip a b l : (0 < l)%re -> (l <= a)%re -> (l <= b)%re -> (Rabs (ln a - ln b) <= Rabs (a - b) / l)%re.
  Proof.
    have One : forall a b, (0 < l)%re -> (l <= a)%re -> (l <= b)%re -> (ln a - ln b <= Rabs (a - b) / l)%re.
      move=> u v Hl Hu Hv. have Hu0 : (0 < u)%re by lra. have Hv0 : (0 < v)%re by lra. have Eln : (ln u - ln v = ln (u / v))%re by rewrite /Rdiv ln_mult ?ln_Rinv //; exact: Rinv_0_lt_compat.
      rewrite Eln. have := ln_le_sub1 (Rdiv_lt_0_compat u v Hu0 Hv0). have E : (u / v - 1 = (u - v) / v)%re by field; lra.
      have Hle : ((u - v) / v <= Rabs (u - v) / l)%re.
        apply: Rle_trans (_ : Rabs (u - v) / v <= _)%re; first by apply: Rmult_le_compat_r; [exact: Rlt_le (Rinv_0_lt_compat _ Hv0)|exact: Rle_abs].
        apply: Rmult_le_compat_l; first exact: Rabs_pos. exact: Rinv_le_contravar.
      rewrite E. move: (ln _) => z. lra.
    move=> Hl Ha Hb. apply: Rabs_le. have := One a b Hl Ha Hb. have := One b a Hl Hb Ha. rewrite (Rabs_minus_sym b a). lra.
  Qed.
  Lemma uc_ln t i : List.In t ft -> uc (fun x w => ln (avg_factor K (fac x.1.1 t) w i i)) (fun w => ln (avg_factor K (fac s0 t) w i i)).
  Proof.
    move=> Ht. case: Hinv => Hsm [Hfe _]. have Hfac := fac_spec Hd Hsm Hfe Hy Ht.
    have Hpos : forall k : 'I_K, (0 < fac s0 t k i i)%re by move=> k; case: (Hfac k (ltn_ord k)) => S [_ [_ [_ [P _]]]].
    have Hl : exists l, (0 < l)%re /\ forall k : 'I_K, (l <= fac s0 t k i i / 2)%re.
      have [l [Hl L]] := @min_eps 'I_K (fun k l => (l <= fac s0 t k i i / 2)%re) (enum 'I_K)
         (fun k _ => ex_intro _ (fac s0 t k i i / 2)%re (conj (Rdiv_lt_0_compat _ _ (Hpos k) Rlt_0_2) (fun e' He => proj2 He))).
      exists l. split=> // k. apply: L. exact: in_enum.
    case: Hl => l [Hl L] d Hdd. have Hdl : (0 < d * l)%re by exact: Rmult_lt_0_compat.
    have E1 : ev (fun x => forall k : 'I_K, (Rabs (fac x.1.1 t k i i - fac s0 t k i i) <= d * l)%re).
      apply: (ev_fin Nd_le) => k. exact: (ct_entry i i (ct_fac (ltn_ord k) Ht) Hdl).
    have E2 : ev (fun x => forall k : 'I_K, (fac s0 t k i i / 2 <= fac x.1.1 t k i i)%re).
      apply: (ev_fin Nd_le) => k. exact: (ctR_pos (ct_entry i i (ct_fac (ltn_ord k) Ht)) (Hpos k)).
    have := ev_and Nd_le E1 E2. apply: ev_imp => x [A B] w Fw.
    have EE : forall s, avg_factor K (fac s t) w i i = \sum_(k < K) nth 0 w k * fac s t k i i.
      move=> s. rewrite /avg_factor summxE. apply: eq_bigr => k _. by rewrite mxE.
    rewrite !EE. apply: Rle_trans (ln_lip (l := l) Hl _ _) _.
    - apply: wsum_low => // k. exact: Rle_trans (L k) (B k).
    - apply: wsum_low => // k. have := L k. have := Hpos k. lra.
    - have -> : ((\sum_(k < K) nth 0 w k * fac x.1.1 t k i i)%R - (\sum_(k < K) nth 0 w k * fac s0 t k i i)%R)%re
          = (\sum_(k < K) nth 0 w k * (fac x.1.1 t k i i - fac s0 t k i i))%R.
        change ((\sum_(k < K) nth 0 w k * fac x.1.1 t k i i) - (\sum_(k < K) nth 0 w k * fac s0 t k i i) = \sum_(k < K) nth 0 w k * (fac x.1.1 t k i i - fac s0 t k i i)).
        rewrite -sumrB. apply: eq_bigr => k _. by rewrite mulrBr.
      have := wsum_bound (f := fun k : 'I_K => fac x.1.1 t k i i - fac s0 t k i i) Fw A. move: (Rabs _) => z Hz.
      have E : (d = d * l / l)%re by field; lra. rewrite [X in (_ <= X)%re]E. apply: Rmult_le_compat_r => //. exact: Rlt_le (Rinv_0_lt_compat _ Hl).
  Qed.
  Lemma qf_bound w (A : 'M[R]_K) : feasible K w -> (Rabs (qf A (wvec K w)) <= mnorm A)%re.
  Proof.
    move=> Fw. have Hw : forall k : 'I_K, (Rabs (nth 0 w k) <= 1)%re.
      case: Fw => _ [F0 F1] k. rewrite Rabs_pos_eq; last exact: F0.
      apply: Rle_trans (_ : _ <= (\sum_(k < K) nth 0 w k)%R)%re _; last by rewrite F1; exact: Rle_refl.
      apply: (@sum_ge_term [finType of 'I_K] (fun k : 'I_K => nth 0 w k) k) => j. exact: F0.
    have -> : qf A (wvec K w) = \sum_(k < K) \sum_(l < K) nth 0 w k * A k l * nth 0 w l.
      rewrite /qf mxE (eq_bigr (fun l : 'I_K => \sum_(k < K) nth 0 w k * A k l * nth 0 w l)) => [|l _]; first by rewrite exchange_big.
      rewrite !mxE big_distrl /=. apply: eq_bigr => k _. by rewrite !mxE.
    apply: Rle_trans (sum_abs _) _. apply: sumR_le => k _. apply: Rle_trans (sum_abs _) _. apply: sumR_le => l _.
    toR. rewrite !Rabs_mult. have := Hw k. have := Hw l. have := Rabs_pos (nth 0 w k). have := Rabs_pos (nth 0 w l). have := Rabs_pos (A k l).
    move: (Rabs (A k l)) (Rabs (nth 0 w k)) (Rabs (nth 0 w l)) => u v z Hu Hz Hv Hz1 Hv1.
    have Hvz : (v * z <= 1)%re by nra. nra.
  Qed.
  Lemma uc_obj pairs : (forall st, List.In st pairs -> List.In st.1 ft) -> uc (fun x w => obj x pairs w) (obj (s0, m0, r0) pairs).
  Proof.
    move=> H. apply: uc_add.
      apply: uc_sum => st Hst. apply: (uc_sum (l := index_enum _)) => i _. exact: uc_ln (H st Hst).
    move=> d Hdd. have H2 : (0 < 2 * d)%re by lra. have := ct_QK H H2. apply: ev_imp => x Hx w Fw.
    have := qf_bound (QK K x pairs - QK K (s0, m0, r0) pairs) Fw. rewrite /qf mulmxBr mulmxBl. rewrite [fun_of_matrix (GRing.add _ _) _ _]mxE [fun_of_matrix (GRing.opp _) _ _]mxE.
    rewrite -/(qf (QK K x pairs) (wvec K w)) -/(qf (QK K (s0, m0, r0) pairs) (wvec K w)). move: (qf _ _) (qf _ _) => b a Hb.
    have Hb2 : (Rabs (a - b) <= 2 * d)%re by apply: Rle_trans Hb Hx.
    change (Rabs (- (/ 2 * a) - - (/ 2 * b)) <= d)%re. have -> : (- (/ 2 * a) - - (/ 2 * b) = - / 2 * (a - b))%re by ring.
    rewrite Rabs_mult Rabs_Ropp Rabs_pos_eq; lra.
  Qed.
End Stable.
