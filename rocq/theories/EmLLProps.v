(** * em_low_rank_log_likelihood: the scores are those of the fitted factor models. *)
From Coq Require Import Reals ZArith String List Lia Lra.
Set Warnings "-notation-overridden,-ambiguous-paths".
From mathcomp Require Import all_ssreflect all_algebra.
From Verif Require Import RStruct MatR Num Py Combination Regularization SpecReg RegProps RegMain EmFacts EmProps EmOpt EmMain ExpUtils SpecExp ExpLL ExpMain EmLL CombFacts.
Set Implicit Arguments.
Unset Strict Implicit.
Unset Printing Implicit Defensive.
Import GRing.Theory.
Local Open Scope ring_scope.
Delimit Scope R_scope with re.

Section EmLLProps.
  Context (n : nat).
  Definition tag (ts : seq Z) V (items : seq (nat * V)) : seq (Z * V) := [seq (nth Z0 ts q.1, q.2) | q <- items].
  Definition fac0 k : factors n k := (0, 0).

  Lemma mapE A B (f : A -> B) l : map f l = List.map f l. Proof. by []. Qed.
  Lemma sizeE A (l : seq A) : size l = List.length l. Proof. by []. Qed.
  Lemma nthE A (l : seq A) j x : List.nth_error l j = Some x -> (j < size l)%N /\ forall d, nth d l j = x.
  Proof. elim: l j => [|a l IH] [|j] //=; first by case=> ->. by move/IH => [H1 H2]. Qed.
  Lemma nthE2 A (l : seq A) j d : (j < size l)%N -> List.nth_error l j = Some (nth d l j).
  Proof. elim: l j => [|a l IH] [|j] //= H. exact: IH. Qed.

  Lemma mapM_inv A B (f : A -> res B) l l' : mapM f l = Ok l' -> List.Forall2 (fun a b => f a = Ok b) l l'.
  Proof.
    elim: l l' => [|a l IH] l' /=; first by case=> <-.
    case E: (f a) => [b|//] /=. case E2: (mapM f l) => [m|//] /= [<-]. constructor=> //. exact: IH.
  Qed.

  Lemma tag_nodup V (ts : seq Z) (items : seq (nat * V)) : List.NoDup ts -> List.NoDup (map fst items) ->
    (forall q, List.In q items -> (q.1 < size ts)%N) -> List.NoDup (List.map fst (tag ts items)).
  Proof.
    move=> Hts. rewrite /tag -mapE -map_comp. elim: items => [|q l IH] /=; first by constructor.
    move=> Hnd H. inversion Hnd as [|x y Hn Hnd']; subst. constructor.
    - rewrite mapE List.in_map_iff => -[q' /= [E Hin]]. apply: Hn. rewrite mapE List.in_map_iff. exists q'. split=> //.
      have H1 := H q (or_introl erefl). have H2 := H q' (or_intror Hin).
      have := proj1 (List.NoDup_nth ts Z0) Hts q'.1 q.1. rewrite -!sizeE. have nl: forall l' j, List.nth j l' Z0 = nth Z0 l' j by elim=> [|? ? IH'] [|j] //=.
      rewrite !nl. apply=> //; by apply/ltP.
    - apply: IH => // q' Hq'. apply: H. by right.
  Qed.

  Lemma em_ll_scores k (eigh : eigh_t n) (ts : seq Z) (xs : seq 'cV[R]_n) (items : seq (nat * sframe n)) fs :
    eigh_ok eigh -> List.NoDup ts -> size ts = size xs -> (0 < n)%N -> xs <> [::] -> List.NoDup (map fst items) ->
    (forall q, List.In q items -> (q.1 < size ts)%N /\ exists S, s_val q.2 = Some S /\ spd S) ->
    regularize_covariance eigh (tag ts items) (Z.of_nat k) true = (fs, None) ->
    (forall t ci F ci' d, List.In (t, Factored ci F ci' d) fs -> pos_vec d) ->
    exists Vs : seq 'M[R]_n, size Vs = size items /\
      em_low_rank_log_likelihood k eigh (zip ts (map (@finite_row n) xs)) (tag ts items) =
        Ok (scores ts xs (fun _ => 0) (zip (map fst items) Vs)) /\
      forall j t fr S V, List.nth_error (tag ts items) j = Some (t, fr) -> s_val fr = Some S -> List.nth_error Vs j = Some V ->
        (exists (F : 'M[R]_(n, k)) d, V = factor_model F d /\ pos_vec d) /\
        forall ds ed ci ci' M, regularize_covariance eigh (tag ts items) (Z.of_nat k) false = (ds, ed) ->
          List.nth_error ds j = Some (t, Dense ci ci' M) -> (loglik S M <= loglik S V)%re.
  Proof.
    move=> Hok Hts Hsz Hn Hne Hnd Hit Hreg Hpos. set Sg := tag ts items.
    have HSg : forall t fr, List.In (t, fr) Sg -> exists S, s_val fr = Some S /\ spd S.
      move=> t fr. rewrite /Sg /tag mapE List.in_map_iff => -[q [[_ <-] /Hit [_ //]]].
    have HndS : List.NoDup (List.map fst Sg) by apply: tag_nodup => // q /Hit [].
    have Hlen : List.length fs = List.length Sg by have := yield_stops Hreg.
    have Hkey : List.map fst fs = List.map fst Sg.
      rewrite -!mapE. apply: (@eq_from_nth _ Z0); [by rewrite (size_map _ fs) (size_map _ Sg) !sizeE Hlen|]. move=> j. rewrite size_map => Hj.
      have Hj' : (j < size Sg)%N by rewrite sizeE -Hlen.
      case Hh : fs Hj => [//|p0 fs0] _. rewrite -Hh. have [t it] := p0.
      have E := nthE2 (Z0, (nth p0 fs j).2) (l := fs) (j := j). rewrite Hh in E. rewrite -Hh in E.
      have Hj : (j < size fs)%N by rewrite sizeE Hlen. have {E} := E Hj. case E0 : (nth _ fs j) => [u w] E.
      have [fr [/= E2 _]] := item_inv Hreg E. have [_ E3] := nthE E2. have [_ E4] := nthE E.
      by rewrite (nth_map (u, w)) // E4 (nth_map (u, fr)) // E3.
    have Hfac : forall t it, List.In (t, it) fs -> exists Fd : factors n k, to_factors k it = Some Fd /\ pos_vec Fd.2 /\
        exists cols f d, it = Factored cols (map Some f) cols d /\ size f = k /\ Fd.2 = d /\ factor_model Fd.1 d = factor_model (of_cols f) d.
    { move=> t it Hin. have [j E] := List.In_nth_error _ _ Hin. have [fr [/= E2 _]] := item_inv Hreg E.
      have [S [ES HS]] := HSg _ _ (List.nth_error_In _ _ E2).
      have [f [d [Eit [Ef _]]]] := main_lowrank Hok Hreg E E2 ES (spd_psd HS). rewrite Nat2Z.id in Ef. subst it.
      exists (\matrix_(i, a) (odflt 0 (nth None (map Some f) a)) i 0, d). split.
        rewrite /to_factors size_map Ef eqxx /=. have ->: all isSome [seq Some i | i <- f] by elim: (f).
        by [].
      split; first exact: Hpos Hin. exists (s_cols fr), f, d. do 3 split=> //=. subst k.
      congr factor_model. apply/matrixP => i a. by rewrite !mxE (nth_map 0). }
    pose fac (p : Z * reg_item n) := (p.1, odflt (fac0 k) (to_factors k p.2)).
    pose cov (p : Z * sframe n) := (p.1, odflt 0 (s_val p.2)).
    have E1 : mapM (fun p => do Fd <- or_raise (to_factors k p.2) Unmodelled; Ok (p.1, Fd)) fs = Ok (map fac fs).
      apply: mapM_ok => -[t it] Hin. case: (Hfac _ _ Hin) => Fd [E _]. by rewrite /fac /= E.
    have E2 : mapM (fun p => do S <- or_raise (s_val p.2) Unmodelled; Ok (p.1, S)) Sg = Ok (map cov Sg).
      apply: mapM_ok => -[t fr] Hin. case: (HSg _ _ Hin) => S [E _]. by rewrite /cov /= E.
    have Hk1 : List.map fst (map fac fs) = List.map fst Sg by rewrite List.map_map -Hkey.
    have Hk2 : List.map fst (map cov Sg) = List.map fst Sg by rewrite List.map_map.
    have Hget : forall j t it, List.nth_error fs j = Some (t, it) -> dict_get Z.eqb (map fac fs) t = Some (odflt (fac0 k) (to_factors k it)).
      move=> j t it E. apply: dict_get_in; first by rewrite Hk1. rewrite mapE List.in_map_iff. exists (t, it). split=> //. exact: List.nth_error_In E.
    have [] := @em_total n k (map cov Sg) (map fac fs).
    - move=> t S. rewrite mapE List.in_map_iff => -[[u fr] [[_ <-] /HSg [S' [-> H]]]]. exact: H.
    - move=> t S Hin. have Ht : List.In t (List.map fst fs) by rewrite Hkey -Hk2; apply: (List.in_map fst _ (t, S)).
      move: Ht. rewrite List.in_map_iff => -[[u it] [/= Eu Hu]]. subst u. have [j E] := List.In_nth_error _ _ Hu. rewrite (Hget _ _ _ E).
      case: (Hfac _ _ Hu) => Fd [-> [Hp _]]. exists Fd.1, Fd.2. by case: (Fd) Hp.
    move=> em [Eem Hkem].
    have Hem : forall j t Fd, List.nth_error em j = Some (t, Fd) -> exists fr S it ci f d, List.nth_error Sg j = Some (t, fr) /\ s_val fr = Some S /\
        List.nth_error fs j = Some (t, it) /\ it = Factored ci (map Some f) ci d /\ size f = k /\ pos_vec Fd.2 /\
        (loglik S (factor_model (of_cols f) d) <= loglik S (factor_model Fd.1 Fd.2))%re.
    { move=> j t [F d] E. have [S [F0 [d0 [H1 [H2 _]]]]] := em_item Eem E.
      have [fr [Efr ES]] : exists fr, List.nth_error Sg j = Some (t, fr) /\ S = odflt 0 (s_val fr).
        move: H1. rewrite mapE. case Ex: (List.nth_error Sg j) => [[u fr]|]; last by rewrite (proj2 (List.nth_error_None _ _)) // List.map_length; apply/List.nth_error_None.
        rewrite (List.map_nth_error cov _ _ Ex) => -[<- <-]. by exists fr.
      have [S' [ES' HS]] := HSg _ _ (List.nth_error_In _ _ Efr). rewrite ES' /= in ES. subst S'.
      have [it Eit] : exists it, List.nth_error fs j = Some (t, it).
        case Ex: (List.nth_error fs j) => [[u it]|]; last by move/List.nth_error_None: Ex; rewrite Hlen => /List.nth_error_None; rewrite Efr.
        have [fr' [/= E' _]] := item_inv Hreg Ex. rewrite Efr in E'. case: E' => -> _. by exists it.
      case: (Hfac _ _ (List.nth_error_In _ _ Eit)) => Fd0 [EFd [Hp0 [ci [f [d' [E3 [E4 [E5 E6]]]]]]]].
      rewrite (Hget _ _ _ Eit) EFd /= in H2.
      have H2' : dict_get Z.eqb (map fac fs) t = Some (Fd0.1, Fd0.2) by rewrite (Hget _ _ _ Eit) EFd /=; case: (Fd0).
      have [L1 [_ [L2 _]]] := em_main Eem E H1 HS H2' Hp0.
      exists fr, S, it, ci, f, d'. do 5 split=> //. split; first exact: L2. rewrite -E6 -E5. exact: L1. }
    have Hlem : size em = size items by rewrite -(size_map fst em) mapE Hkem Hk2 -mapE /Sg /tag !size_map.
    have Hall : forall q, List.In q em -> pos_vec q.2.2.
      move=> [t Fd] Hq. have [j E] := List.In_nth_error _ _ Hq. by have [? [? [? [? [? [? [_ [_ [_ [_ [_ [H _]]]]]]]]]]]] := Hem _ _ _ E.
    pose its := zip (map fst items) (map snd em).
    have Etag : em = tag ts its.
      apply: (@eq_from_nth _ (Z0, fac0 k)); first by rewrite /tag size_map size_zip !size_map Hlem minnn.
      move=> j Hj. rewrite /tag (nth_map (0%N, fac0 k)); last by rewrite size_zip !size_map Hlem minnn -Hlem.
      rewrite nth_zip ?size_map //= (nth_map (Z0, fac0 k)) //.
      have Hj' : (j < size items)%N by rewrite -Hlem.
      have := congr1 (fun l => nth Z0 l j) Hkem. rewrite -!mapE /Sg /tag -!map_comp (nth_map (Z0, fac0 k)) //.
      have [q0 _] : exists q0, List.nth_error items j = Some q0.
        by case Ex: (List.nth_error items j) => [x|]; [exists x|move/List.nth_error_None: Ex; rewrite -sizeE; lia].
      rewrite !(nth_map q0) //= => <-. by case: nth.
    exists [seq factor_model q.2.1 q.2.2 | q <- em]. split; first by rewrite size_map.
    split.
    - rewrite /em_low_rank_log_likelihood Hreg /= -/Sg E1 E2 /= Eem /= {1}Etag /tag.
      rewrite (@low_rank_scores n k ts xs None (fun=> 0)) //.
      + congr Ok. congr scores. rewrite /its. clear. elim: items em => [|q items IH] [|p em] //=; by rewrite ?IH.
      + move=> q Hq. have [j E] := List.In_nth_error _ _ Hq. have [Hj Hq2] := nthE E.
        have Hj' : (j < size items)%N by move: Hj; rewrite /its size_zip !size_map Hlem minnn.
        have [q0 _] : exists q0, List.nth_error items j = Some q0.
          by case Ex: (List.nth_error items j) => [x|]; [exists x|move/List.nth_error_None: Ex; rewrite -sizeE; lia].
        rewrite -(Hq2 (q0.1, fac0 k)) /its nth_zip ?size_map //= (nth_map q0) // (nth_map (Z0, fac0 k)) ?Hlem //. split.
          have [] // := Hit (nth q0 items j). apply: (List.nth_error_In _ j). exact: nthE2.
        apply: Hall. apply: (List.nth_error_In _ j). apply: nthE2. by rewrite Hlem.
    - move=> j t fr S V E ES EV.
      have [[u Fd] [Eem' EV']] : exists q, List.nth_error em j = Some q /\ factor_model q.2.1 q.2.2 = V.
        move: EV. rewrite mapE. case Ex: (List.nth_error em j) => [q|]; last by rewrite (proj2 (List.nth_error_None _ _)) // List.map_length; apply/List.nth_error_None.
        rewrite (List.map_nth_error (fun q => factor_model q.2.1 q.2.2) _ _ Ex) => -[<-]. by exists q.
      have [fr' [S' [it [ci [f [d [H1 [H2 [H3 [H4 [H5 [H6 H7]]]]]]]]]]]] := Hem _ _ _ Eem'. rewrite E in H1. case: H1 => ? ?. subst u fr'.
      rewrite ES in H2. case: H2 => ?. subst S'. split; first by exists Fd.1, Fd.2; split=> //; case: (Fd) EV'.
      move=> ds ed ci1 ci2 M Hds EM.
      have [L [Hp [HL [_ Ei]]]] := item_known Hreg H3 E ES. have [L' [_ [HL' [_ Ei']]]] := item_known Hds EM E ES.
      rewrite HL in HL'. case: HL' => ?. subst L'. rewrite H4 in Ei. case: Ei => _ EF _ Ed.
      have [S1 [ES1 HS1]] := HSg _ _ (List.nth_error_In _ _ E). rewrite ES in ES1. case: ES1 => ?. subst S1.
      have [f' [Ef' [_ [_ [_ [_ [Edn _]]]]]]] := struct_eq Hok (spd_psd HS1) Hp HL.
      have ? : f' = f by apply: (inj_map (f := Some)); [move=> ? ? []|rewrite EF -Ef'].
      subst f'. case: Ei' => _ _ ->. rewrite Edn -Ed -EV'. exact: H7.
  Qed.

  Lemma em_ll_raises k (eigh : eigh_t n) returns Sigmas e :
    (regularize_covariance eigh Sigmas (Z.of_nat k) true).2 = Some e -> em_low_rank_log_likelihood k eigh returns Sigmas = Raise e.
  Proof. by rewrite /em_low_rank_log_likelihood => ->. Qed.
End EmLLProps.
