(** * em_regularize_covariance, item by item. *)
From Coq Require Import Reals Lra ZArith List.
Set Warnings "-notation-overridden,-ambiguous-paths".
From mathcomp Require Import all_ssreflect all_algebra.
From Verif Require Import RStruct MatR Py Num Combination Spectral Regularization SpecReg RegProps EmFacts EmProps EmOpt.
Set Implicit Arguments.
Unset Strict Implicit.
Unset Printing Implicit Defensive.
Import GRing.Theory.
Local Open Scope ring_scope.
Delimit Scope R_scope with re.

Section Em.
  Context (n k : nat).
  Implicit Types (sigmas : list (Z * 'M[R]_n)) (initial : list (Z * factors n k)).

  Lemma em_item sigmas initial items ex j t Fd : em_regularize_covariance sigmas initial = (items, ex) ->
    List.nth_error items j = Some (t, Fd) ->
    exists S F0 d0, List.nth_error sigmas j = Some (t, S) /\ dict_get Z.eqb initial t = Some (F0, d0) /\
      em_iter 5 S (F0, d0) = Ok Fd.
  Proof.
    move=> H /(yield_nth H) [S /= [H1]]. case E : (dict_get _ _ _) => [[F0 d0]|//] /= H2. by exists S, F0, d0.
  Qed.
  Lemma loglik_le (Sg V V' : 'M[R]_n) (a b : R) : loglik Sg V = (- / 2 * a)%re -> loglik Sg V' = (- / 2 * b)%re ->
    (b <= a)%re -> (loglik Sg V <= loglik Sg V')%re.
  Proof. move=> -> ->. lra. Qed.

  Lemma em_main sigmas initial items ex j t S F0 d0 F d : em_regularize_covariance sigmas initial = (items, ex) ->
    List.nth_error items j = Some (t, (F, d)) -> List.nth_error sigmas j = Some (t, S) -> spd S ->
    dict_get Z.eqb initial t = Some (F0, d0) -> pos_vec d0 ->
    (loglik S (factor_model F0 d0) <= loglik S (factor_model F d))%re /\
    (loglik S (factor_model F0 d0) = loglik S (factor_model F d) -> F = F0 /\ d = d0) /\
    pos_vec d /\ spd (factor_model F d).
  Proof.
    move=> H /(em_item H) [S' [F1 [d1 [-> [-> H2]]]]] [E] HS [E1 E2]. subst S' F1 d1. move=> Hd.
    case: (em_iter_ok 5 F0 HS Hd) => F' [d' [E [Hp [H3 H4]]]]. rewrite E in H2. case: H2 => ? ?. subst F' d'.
    split; last split; last split=> //.
    - exact: loglik_le (loglik_dev S F0 d0) (loglik_dev S F d) H3.
    - rewrite !loglik_dev => E'. have [] : (F, d) = (F0, d0); last by move=> -> ->. apply: H4. lra.
    - exact: fm_spd.
  Qed.
  Lemma em_total sigmas initial : (forall t S, List.In (t, S) sigmas -> spd S) ->
    (forall t S, List.In (t, S) sigmas -> exists F0 d0, dict_get Z.eqb initial t = Some (F0, d0) /\ pos_vec d0) ->
    exists items, em_regularize_covariance sigmas initial = (items, None) /\ List.map fst items = List.map fst sigmas.
  Proof.
    move=> HS Hi. have [|items [E [_ E2]]] := @yield_total _ _ (fun t S => do init <- or_raise (dict_get Z.eqb initial t) KeyError; em_low_rank S init) sigmas.
      move=> t S Hin. case: (Hi t S Hin) => F0 [d0 [-> Hd]] /=. case: (em_iter_ok 5 F0 (HS t S Hin) Hd) => F' [d' [E _]].
      by exists (F', d').
    by exists items.
  Qed.
  Lemma em_missing sigmas1 t S sigmas2 initial : (forall u S', List.In (u, S') sigmas1 -> spd S') ->
    (forall u S', List.In (u, S') sigmas1 -> exists F0 d0, dict_get Z.eqb initial u = Some (F0, d0) /\ pos_vec d0) ->
    dict_get Z.eqb initial t = None ->
    exists items, em_regularize_covariance (List.app sigmas1 ((t, S) :: sigmas2)) initial = (items, Some KeyError) /\
      List.map fst items = List.map fst sigmas1.
  Proof.
    move=> HS Hi Hm. elim: sigmas1 HS Hi => [|[u S'] l IH] HS Hi.
      by exists nil; rewrite /em_regularize_covariance /= Hm.
    case: IH; [by move=> v X Hin; apply: (HS v); right|by move=> v X Hin; apply: (Hi v X); right|].
    move=> items [E1 E2]. case: (Hi u S' (or_introl erefl)) => F0 [d0 [E Hd]].
    case: (em_iter_ok 5 F0 (HS u S' (or_introl erefl)) Hd) => F' [d' [E' _]].
    exists ((u, (F', d')) :: items). rewrite /em_regularize_covariance /= E /= /em_low_rank E'.
    move: E1. rewrite /em_regularize_covariance => ->. by rewrite /= E2.
  Qed.
  Lemma em_exact sigmas initial items ex j t Fd F0 d0 : em_regularize_covariance sigmas initial = (items, ex) ->
    List.nth_error items j = Some (t, Fd) -> dict_get Z.eqb initial t = Some (F0, d0) -> pos_vec d0 ->
    List.nth_error sigmas j = Some (t, factor_model F0 d0) -> Fd = (F0, d0).
  Proof.
    move=> H /(em_item H) [S [F1 [d1 [-> [-> H2]]]]] [E1 E2] Hd [E]. subst F1 d1 S.
    have := em_iter_fixed 5 (em_step_fixed F0 Hd). rewrite H2. by case.
  Qed.
  Lemma em_stationary sigmas initial items ex j t S F0 d0 F d : em_regularize_covariance sigmas initial = (items, ex) ->
    List.nth_error items j = Some (t, (F, d)) -> List.nth_error sigmas j = Some (t, S) -> spd S ->
    dict_get Z.eqb initial t = Some (F0, d0) -> pos_vec d0 ->
    (F, d) = (F0, d0) <-> (S *m invmx (factor_model F0 d0) *m F0 = F0 /\ forall i, factor_model F0 d0 i i = S i i).
  Proof.
    move=> H /(em_item H) [S' [F1 [d1 [-> [-> H2]]]]] [E] HS [E1 E2]. subst S' F1 d1. move=> Hd. rewrite -fixed_iff //. split.
    - move=> E. rewrite E in H2. case: (em_step_ok F0 HS Hd) => F1 [d1 [E1 [Hp _]]]. rewrite E1. congr Ok.
      have [H3 H4] := em_step_better HS Hd E1. apply: H4. apply: Rle_antisym => //.
      move: H2. rewrite [em_iter 5 _ _]/= E1 /=. change (em_iter 4 S (F1, d1) = Ok (F0, d0) -> (dev S F0 d0 <= dev S F1 d1)%re).
      case: (em_iter_ok 4 F1 HS Hp) => F2 [d2 [-> [_ [H5 _]]]] [<- <-]. exact: H5.
    - move=> E. have := em_iter_fixed 5 E. rewrite H2. by case=> -> ->.
  Qed.

  Lemma em_step_rt (S : 'M[R]_n) (F : 'M[R]_(n, k)) d F' d' : spd S -> pos_vec d -> em_step S (F, d) = Ok (F', d') ->
    rubin_thayer S (F, d) (F', d').
  Proof.
    move=> HS Hd E. case: (em_step_ok F HS Hd) => F1 [d1 [E1 [_ [E2 E3]]]]. rewrite E in E1. case: E1 E2 E3 => <- <- E2 E3.
    have Hc := spd_unit (Css_spd F (spd_psd HS) Hd).
    have EC : F^T *m invmx (factor_model F d) *m S *m (F^T *m invmx (factor_model F d))^T + 1%:M - F^T *m invmx (factor_model F d) *m F = Css S F d.
      by rewrite -LE // LF // /Css -addrA opprB [1%:M + _]addrC subrK.
    rewrite /rubin_thayer /=. split; first by rewrite EC.
    have EF : F' *m Css S F d = Cxs S F d by rewrite E2 mulmxKV.
    split; first by rewrite EC EF /Cxs LE.
    move=> i. rewrite E3 (residE _ _ _ _ (proj1 HS)) subE -LE //.
    have -> : qf (Css S F d) (row i F')^T = \sum_a Cxs S F d i a * F' i a.
      rewrite /qf trmxK -row_mul EF [in LHS]mxE. apply: eq_bigr => a _. by rewrite !mxE.
    have -> : (F' *m Lm F d *m S) i i = \sum_a Cxs S F d i a * F' i a.
      rewrite -mulmxA mxE. apply: eq_bigr => a _. rewrite mulrC. congr (_ * _).
      by rewrite -[Lm F d *m S]trmxK trmx_mul (proj1 HS) mxE.
    have -> : \sum_a Cxs S F d i a * ((row i F')^T) a 0 = \sum_a Cxs S F d i a * F' i a by apply: eq_bigr => a _; rewrite !mxE.
    move: (\sum_a _) (S i i) => u v. Rring.
  Qed.
  Lemma em_five sigmas initial items ex j t S F0 d0 Fd : em_regularize_covariance sigmas initial = (items, ex) ->
    List.nth_error items j = Some (t, Fd) -> List.nth_error sigmas j = Some (t, S) -> spd S ->
    dict_get Z.eqb initial t = Some (F0, d0) -> pos_vec d0 ->
    exists p1 p2 p3 p4, rubin_thayer S (F0, d0) p1 /\ rubin_thayer S p1 p2 /\ rubin_thayer S p2 p3 /\ rubin_thayer S p3 p4 /\
      rubin_thayer S p4 Fd.
  Proof.
    move=> H /(em_item H) [S' [F1 [d1 [-> [-> H2]]]]] [E] HS [E1 E2] Hd. subst S' F1 d1. move: H2. rewrite /em_iter.
    have step : forall (F : 'M[R]_(n, k)) d, pos_vec d -> exists F' d', em_step S (F, d) = Ok (F', d') /\ pos_vec d' /\ rubin_thayer S (F, d) (F', d').
      move=> F d H'. case: (em_step_ok F HS H') => F' [d' [E [Hp _]]]. exists F', d'. do 2 split=> //. exact: em_step_rt.
    case: (step F0 d0 Hd) => F1 [d1 [-> [/step S1 R1]]]. rewrite [bind _ _]/=.
    case: (S1 F1) => F2 [d2 [-> [/step S2 R2]]]. rewrite [bind _ _]/=.
    case: (S2 F2) => F3 [d3 [-> [/step S3 R3]]]. rewrite [bind _ _]/=.
    case: (S3 F3) => F4 [d4 [-> [/step S4 R4]]]. rewrite [bind _ _]/=.
    case: (S4 F4) => F5 [d5 [-> [_ R5]]]. rewrite [bind _ _]/= => -[<-].
    by exists (F1, d1), (F2, d2), (F3, d3), (F4, d4).
  Qed.
End Em.
