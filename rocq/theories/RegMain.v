(** * The properties of regularize_covariance, item by item. *)
From Coq Require Import Reals Lra ZArith String List Lia.
Set Warnings "-notation-overridden,-ambiguous-paths".
From mathcomp Require Import all_ssreflect all_algebra.
From Verif Require Import RStruct MatR Num Py Combination Spectral Regularization SpecReg RegProps RegOpt.
Set Implicit Arguments.
Unset Strict Implicit.
Unset Printing Implicit Defensive.
Import GRing.Theory.
Local Open Scope ring_scope.
Delimit Scope R_scope with re.

Section Main.
  Context (n : nat).
  Implicit Types (eigh : eigh_t n) (S : 'M[R]_n).

  Lemma corr_eq S : (forall i, (0 < S i i)%re) -> correlation S = corr S.
  Proof.
    move=> Hp. apply/matrixP => i j. rewrite !mxE /rcp sqrt_mult; [|apply: Rlt_le; exact: Hp|apply: Rlt_le; exact: Hp].
    have := sqrt_lt_R0 _ (Hp i). have := sqrt_lt_R0 _ (Hp j). move: (sqrt (S i i)) (sqrt (S j j)) (S i j) => p q x Hq Hpp.
    toR. eqR. field. split; lra.
  Qed.
  Lemma item_inv eigh sigmas r b items ex j t it : regularize_covariance eigh sigmas r b = (items, ex) ->
    List.nth_error items j = Some (t, it) ->
    exists fr, List.nth_error sigmas j = Some (t, fr) /\ regularize_one eigh r b fr = Ok it.
  Proof. by move=> H /(yield_nth H) [fr /= [H1 H2]]; exists fr. Qed.
  Lemma rank_nat eigh A r L : @regularize_correlation n eigh A r = Ok L -> r = Z.of_nat (Z.to_nat r) /\ (Z.le 1 r /\ Z.le r (Z.of_nat n)).
  Proof.
    rewrite /regularize_correlation /eigh_call. case Hb : (_ && _ && _)%bool => // _.
    move: Hb => /andP [/andP [/Z.leb_le H1 /Z.leb_le H2] _]. split; last lia. rewrite Z2Nat.id //. lia.
  Qed.

  (** C31 *)
  Lemma main_diag eigh sigmas r items ex j t it :
    regularize_covariance eigh sigmas r false = (items, ex) -> List.nth_error items j = Some (t, it) ->
    exists fr S M, List.nth_error sigmas j = Some (t, fr) /\ s_val fr = Some S /\ it = Dense (s_cols fr) (s_cols fr) M /\
      (forall i, M i i = S i i) /\ sym M.
  Proof. move=> H /(item_inv H) [fr [H1 /reg_dense [S [M H2]]]]. by exists fr, S, M. Qed.

  Lemma item_known eigh sigmas r b items ex j t it fr S : regularize_covariance eigh sigmas r b = (items, ex) ->
    List.nth_error items j = Some (t, it) -> List.nth_error sigmas j = Some (t, fr) -> s_val fr = Some S ->
    exists L, (forall i, (0 < S i i)%re) /\ regularize_correlation eigh (correlation S) (Z.of_nat (Z.to_nat r)) = Ok L /\
      (r = Z.of_nat (Z.to_nat r) /\ (Z.le 1 r /\ Z.le r (Z.of_nat n))) /\
      it = if b then Factored (s_cols fr) (F_of S L) (s_cols fr) (d_of S L) else Dense (s_cols fr) (s_cols fr) (dense_of S L).
  Proof.
    move=> H /(item_inv H) [fr' [-> H2]] [E0] HS. subst fr'. case: (one_inv H2) => S' [L [E [Hp [HL ->]]]].
    move: E. rewrite HS => -[E]. subst S'. exists L. have Hr := rank_nat HL. split=> //. split=> //. by rewrite -(proj1 Hr).
  Qed.

  (** C32 *)
  Lemma main_factor eigh sigmas r items ex j t it fr S :
    eigh_ok eigh -> regularize_covariance eigh sigmas r false = (items, ex) -> List.nth_error items j = Some (t, it) ->
    List.nth_error sigmas j = Some (t, fr) -> s_val fr = Some S -> psd S ->
    exists M, it = Dense (s_cols fr) (s_cols fr) M /\ psd M /\
      (exists (F : 'M[R]_(n, Z.to_nat r)) d, M = factor_model F d /\ forall i, (0 <= d i ord0)%re) /\
      (r = Z.of_nat n -> M = S).
  Proof.
    move=> Hok H H1 H2 HS Hpsd. case: (item_known H H1 H2 HS) => L [Hp [HL [[Er _] ->]]].
    case: (struct_eq Hok Hpsd Hp HL) => f [Ef [Esz [Hr0 [Hr [Hd [Ed [En _]]]]]]].
    exists (dense_of S L). split=> //. split; first by rewrite Ed; exact: fm_psd. split.
      move: Ed. move: (of_cols f). rewrite Esz => F ->. by exists F, (d_of S L).
    move=> E. apply: En. by rewrite E Nat2Z.id.
  Qed.

  (** C33 *)
  Lemma yield_pair V W (f g : Z -> V -> res W) d l1 e1 l2 e2 :
    (forall t v e, f t v = Raise e <-> g t v = Raise e) -> yield_map f d = (l1, e1) -> yield_map g d = (l2, e2) ->
    e1 = e2 /\ List.length l1 = List.length l2.
  Proof.
    move=> H. elim: d l1 l2 => [|[t v] d IH] l1 l2 /=; first by case=> <- <- [<- <-].
    case Ef : (f t v) => [w|e]; last by case=> <- <-; rewrite (proj1 (H _ _ _) Ef) => -[<- <-].
    case Eg : (g t v) => [w'|e']; last by have := Ef; rewrite (proj2 (H _ _ _) Eg).
    case E1 : (yield_map f d) => [a1 b1] [<- Eb1]. case E2 : (yield_map g d) => [a2 b2] [<- Eb2]. rewrite Eb1 in E1. rewrite Eb2 in E2.
    by have [-> /= ->] := IH _ _ E1 E2.
  Qed.
  Lemma main_formats eigh sigmas r ds ed fs ef :
    regularize_covariance eigh sigmas r false = (ds, ed) -> regularize_covariance eigh sigmas r true = (fs, ef) ->
    ed = ef /\ List.length ds = List.length fs /\ List.map fst ds = List.map fst fs.
  Proof.
    move=> H1 H2. have [] := yield_pair _ H1 H2.
      move=> _ fr e. rewrite /regularize_one. case: (s_val fr) => [S|//]. case: ifP => // _. by case: regularize_correlation.
    move=> Ee El. split=> //. split=> //. clear -H1 H2 El. rewrite /regularize_covariance in H1 H2.
    elim: sigmas ds fs ed ef H1 H2 El => [|[t v] d IH] ds fs ed ef /=; first by case=> <- _ [<- _].
    case: (regularize_one eigh r false v) => [w|e] /=; last by case=> <- _ _; case: fs.
    case E1 : (yield_map _ d) => [a b] [<- Eb]. rewrite Eb in E1. case: (regularize_one eigh r true v) => [w'|e'] //=; last by case=> <-.
    case E2 : (yield_map _ d) => [a' b'] [<- Eb'] /= [El]. rewrite Eb' in E2. congr cons. exact: IH E1 E2 El.
  Qed.
  Lemma main_same eigh sigmas r ds ed fs ef j t it it' :
    (forall A lo hi lam Q, eigh A lo hi = Some (lam, Q) -> size lam = size Q) ->
    regularize_covariance eigh sigmas r false = (ds, ed) -> regularize_covariance eigh sigmas r true = (fs, ef) ->
    List.nth_error ds j = Some (t, it) -> List.nth_error fs j = Some (t, it') ->
    exists cols M F d, it = Dense cols cols M /\ it' = Factored cols F cols d /\
      forall f, F = map Some f -> M = factor_model (of_cols f) d.
  Proof.
    move=> Hsz H1 H2 /(item_inv H1) [fr [H3 H4]] H5. case: (one_inv H4) => S [L [E [Hp [HL ->]]]].
    case: (item_known H2 H5 H3 E) => L' [_ [HL' [[Er _] ->]]]. rewrite -Er HL in HL'. case: HL' => <-.
    exists (s_cols fr), (dense_of S L), (F_of S L), (d_of S L). split=> //. split=> // f Hf.
    apply: (dense_factored HL) Hf. move: HL. rewrite /regularize_correlation /eigh_call. case: ifP => // _.
    case Eq : (eigh _ _ _) => [[lam Q]|] //= [<-] /=. rewrite !size_rev. exact: Hsz Eq.
  Qed.
  Lemma main_lowrank eigh sigmas r fs ef j t it fr S :
    eigh_ok eigh -> regularize_covariance eigh sigmas r true = (fs, ef) -> List.nth_error fs j = Some (t, it) ->
    List.nth_error sigmas j = Some (t, fr) -> s_val fr = Some S -> psd S ->
    exists f d, it = Factored (s_cols fr) (map Some f) (s_cols fr) d /\ size f = Z.to_nat r /\ forall i, (0 <= d i ord0)%re.
  Proof.
    move=> Hok H H1 H2 HS Hpsd. case: (item_known H H1 H2 HS) => L [Hp [HL [[Er _] ->]]].
    case: (struct_eq Hok Hpsd Hp HL) => f [Ef [Esz [Hr0 [Hr [Hd _]]]]].
    exists f, (d_of S L). by rewrite Ef.
  Qed.

  (** C57 *)
  Lemma explainedE k S (G : 'M[R]_(n, k)) : (forall i, (0 < S i i)%re) -> explained S G = \sum_i (G *m G^T) i i / S i i.
  Proof.
    move=> Hp. apply: eq_bigr => i _. rewrite RinvE; last by have := Hp i; toR; lra. by toR.
  Qed.
  Lemma main_principal eigh sigmas r fs ef j t F d ci ci' fr S :
    eigh_ok eigh -> regularize_covariance eigh sigmas r true = (fs, ef) ->
    List.nth_error fs j = Some (t, Factored ci F ci' d) -> List.nth_error sigmas j = Some (t, fr) -> s_val fr = Some S -> psd S ->
    exists f lam, F = map Some f /\ size f = Z.to_nat r /\ size lam = Z.to_nat r /\
      (forall k l, (k <= l)%N -> (l < Z.to_nat r)%N -> (nth 0 lam l <= nth 0 lam k)%re) /\
      (forall k, (k < Z.to_nat r)%N -> corr S *m direction S f k = nth 0 lam k *: direction S f k) /\
      (forall k l, (k < Z.to_nat r)%N -> (l < Z.to_nat r)%N ->
         \sum_a (load f k a * load f l a / S a a)%re = if k == l then nth 0 lam k else 0) /\
      forall G : 'M[R]_(n, Z.to_nat r), psd (S - G *m G^T) -> (explained S G <= explained S (of_cols f))%re.
  Proof.
    move=> Hok H H1 H2 HS Hpsd. case: (item_known H H1 H2 HS) => L [Hp [HL [[Er _] [_ EF _ Ed]]]]. subst F.
    case: (struct_eq Hok Hpsd Hp HL) => f [Ef [Esz _]].
    case: (principal Hok Hpsd Hp HL Ef) => lam [H3 [H4 H5]].
    have Ediv : forall (a : R) (b : R), (0 < b)%re -> a / b = (a / b)%re by move=> a b Hb; rewrite RinvE; [toR|]; lra.
    exists f, lam. split=> //. split=> //. split=> //. split; last split; last split.
    - move=> k l. rewrite leq_eqVlt => /orP [/eqP -> _|Hkl Hl]; [by right|exact: H4].
    - move=> k /H5 [+ _]. rewrite corr_eq //. 
      have -> : (\col_a (nth 0 f k a 0 / volas S a 0) : 'cV[R]_n) = direction S f k by apply/colP => a; rewrite [LHS]mxE [RHS]mxE (Ediv _ _ (volas_pos (Hp a))) [volas _ _ _]mxE.
      by [].
    - move=> k l /H5 [_ H6] /H6 <-. apply: eq_bigr => a _. by rewrite Ediv.
    - move=> G HG. rewrite !explainedE //. exact: (largest_share Hok Hpsd Hp HL Ef HG).
  Qed.

  (** C58 *)
  Lemma main_outcome eigh sigmas r b items ex :
    eigh_total eigh -> (forall t fr S, List.In (t, fr) sigmas -> s_val fr = Some S -> sym S) ->
    regularize_covariance eigh sigmas r b = (items, ex) ->
    match ex with
    | None => List.map fst items = List.map fst sigmas /\
        (sigmas <> nil -> (Z.le 1 r /\ Z.le r (Z.of_nat n))) /\ forall t fr, List.In (t, fr) sigmas -> good_frame fr
    | Some e => e = ValueError /\ exists d1 t fr d2, sigmas = List.app d1 ((t, fr) :: d2) /\ List.map fst items = List.map fst d1 /\
        (~ (Z.le 1 r /\ Z.le r (Z.of_nat n)) \/ ~ good_frame fr)
    end.
  Proof.
    move=> Ht Hs. rewrite /regularize_covariance. elim: sigmas Hs items ex => [|[t fr] d IH] Hs items ex /=.
      case=> <- <-. split=> //. 
    case E : (regularize_one eigh r b fr) => [it|e].
      case Ey : (yield_map _ d) => [l e] [<- Ee]. rewrite Ee in Ey. case: (one_inv E) => S [L [ES [Hp [HL _]]]].
      have Hg : good_frame fr by exists S. have [_ Hr] := rank_nat HL.
      have := IH _ _ _ Ey. case: ex {Ey Ee IH} => [e'|] /= H.
        case: H; first by move=> t' fr' S' Hin; apply: (Hs t'); right.
        move=> -> [d1 [t' [fr' [d2 [-> [E1 E2]]]]]]. split=> //. exists ((t, fr) :: d1), t', fr', d2. split=> //. by rewrite /= E1.
      case: H; first by move=> t' fr' S' Hin; apply: (Hs t'); right.
      move=> -> [_ H]. split=> //. split=> // t' fr' [[_ <-]|] //. exact: H.
    case=> <- <-. case: (reg_raises Ht _ E) => [S HS|-> Hb]; first exact: (Hs t fr S (or_introl erefl) HS).
    split=> //. exists nil, t, fr, d. split=> //. split=> //.
    case: Hb => [Hn|[[S [i [HS Hi]]]|Hr]]; [right|right|by left].
      by case=> S [E1 _]; rewrite Hn in E1.
    case=> S' [E1 Hp]. rewrite HS in E1. case: E1 => E1. subst S'. have := Hp i. lra.
  Qed.
End Main.
