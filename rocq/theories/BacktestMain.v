(** * Proofs about portfolio_backtests.py: the loop over the predictors. *)
From Coq Require Import Reals ZArith String List Lia Lra.
Set Warnings "-notation-overridden,-ambiguous-paths".
From mathcomp Require Import all_ssreflect all_algebra zify.
From Verif Require Import RStruct MatR Num Py Spec ListFacts Combination Trader SpecTrader TraderBt TraderBt2 TraderMain TraderHist TraderFinal FromEwmasProps Backtests SpecBt BacktestProps.
Set Implicit Arguments.
Unset Strict Implicit.
Unset Printing Implicit Defensive.
Import GRing.Theory.
Local Open Scope ring_scope.
Delimit Scope R_scope with re.
Delimit Scope Z_scope with z.

Section Main.
  Context (n : nat).
  Notation vec := 'cV[R]_n.
  Implicit Types (W : world n) (T : trader n) (B : pbt n).

  Lemma In_mem (A : eqType) (x : A) l : x \in l <-> List.In x l.
  Proof.
    elim: l => [|y l IH] //=. rewrite in_cons. split.
    - move=> /orP [/eqP ->|H]; [by left|right; exact/IH].
    - move=> [->|/IH ->]; [by rewrite eqxx|by rewrite orbT].
  Qed.
  Lemma zip_map A C D (f : A -> C) (g : A -> D) l : zip (map f l) (map g l) = [seq (f x, g x) | x <- l].
  Proof. by elim: l => //= x l ->. Qed.
  Lemma zip_fst_snd A C (l : seq (A * C)) : zip (map fst l) (map snd l) = l.
  Proof. by elim: l => //= [[x y]] l ->. Qed.

  Lemma skipn_cons A i (l : list A) x r : List.skipn i l = x :: r -> List.nth_error l i = Some x /\ r = List.skipn i.+1 l.
  Proof. elim: i l => [|i IH] [|y l] //=; [by case=> -> ->|exact: IH]. Qed.
  Lemma nth_error_firstn_lt A i j (l : list A) : (j < i)%coq_nat -> List.nth_error (List.firstn i l) j = List.nth_error l j.
  Proof. elim: i l j => [|i IH] [|y l] [|j] //=; try lia. move=> H. apply: IH. lia. Qed.
  Lemma firstn_S A i (l : list A) x : List.nth_error l i = Some x -> List.firstn i.+1 l = List.app (List.firstn i l) [:: x].
  Proof. elim: i l => [|i IH] [|y l] //=; [by case=> ->|by move/IH => /= ->]. Qed.

  (** What the constructor of Trader gets and makes. *)
  Definition mean_data B (k : kind n) (i : nat) T : Prop :=
    match k with
    | KMeanVariance _ _ _ => exists m rh, mean_of B i = Some m /\ t_rhats T = Some rh /\
        forall j t, List.nth_error (t_times T) j = Some t -> exists r, dict_get Z.eqb (zip m.1.1 m.2) t = Some r /\ nth 0 rh j = r
    | _ => True
    end.
  Definition mean_ok B (k : kind n) (i : nat) : Prop :=
    match k with
    | KMeanVariance _ _ _ => exists m, mean_of B i = Some m /\ means_cover (b_returns B) m (b_start B) (b_end B)
    | _ => True
    end.
  Definition make B k i Sg : res (trader n) :=
    do mus <- mus_of B k i;
    do ' (rt, St, mt) <- get_causal (b_returns B) Sg (b_start B) (b_end B) mus;
    new_trader rt St mt false.
  Lemma make_ok B k i Sg : good_frame (b_returns B) -> covered (b_returns B) Sg (b_start B) (b_end B) -> mean_ok B k i ->
    exists T, make B k i Sg = Ok T /\ causal_trader (b_returns B) Sg (b_start B) (b_end B) T /\ trader_ok T /\ t_diluted T = false /\ mean_data B k i T.
  Proof.
    move=> Hf [Hc [t0 [r0 Ht0]]] Hm. set f := b_returns B in Hf Hc Ht0 *. set a := b_start B in Hc Ht0 *. set b := b_end B in Hc Ht0 *.
    have [mus [Emus Hmus]] : exists mus, mus_of B k i = Ok mus /\ match mus with None => (if k is KMeanVariance _ _ _ then False else True) | Some m => means_cover f m a b /\ mean_of B i = Some m end.
      rewrite /mus_of. case: k Hm => [|l|l||l sd rhos] /=; try (by exists None). rewrite /mean_of. case=> m [E Hm]. case: (b_means B) E => [ms|] //= ->. by exists (Some m).
    have [rt [St [mt E]]] : exists rt St mt, get_causal f Sg a b mus = Ok (rt, St, mt).
      case: mus Hmus {Emus} => [m|] Hmus.
      - apply: causal_total_mus => //; last by case: Hmus => [[_ H]].
        move=> t r /Hc [S [H _]]. by rewrite H.
      - have [|rt [St H]] := causal_total Hf (Sg := Sg) (a := a) (b := b); last by exists rt, St, None. move=> t r /Hc [S [H _]]. by rewrite H.
    have [Ert [EF [ES EM]]] := causal_inv Hf E. set K := kept f a b in Ert EF EM. have HK := In_kept a b _ _ Hf. rewrite -/K in HK.
    have Hsz : (0 < size K)%N. move/HK: Ht0. by case: (K).
    have HSt S : S \in map snd St -> spd S.
      move/In_mem => /In_map [[t S']] /= [-> HS]. have := ES _ _ HS. have : List.In t (map fst St) by apply/In_map; exists (t, S). rewrite EF => /In_map [[t' q]] /= [<- Hq].
      have /Hc [S'' [H1 H2]] : traded f a b t' (values q). apply/HK. apply/In_map. by exists (t', q). move=> H3. rewrite H1 in H3. by case: H3 => <-.
    have Hmt g : mt = Some g -> g.1.1 = map fst K /\ g.1.2 = f.1.2 /\ size g.2 = size (map fst K).
      move=> Eg. rewrite Eg in EM. case: mus Hmus EM {Emus E} => [m|] // [[Hcol _] _] [l [-> [El _]]] /=. split=> //. split; last by rewrite -El !size_map.
      by case: (K) Hsz.
    have [] := @new_trader_ok n (map fst K) f.1.2 (map (fun r => values r.2) K) St mt EF _ _ HSt Hmt; [by rewrite size_map|by rewrite !size_map|].
    move=> T [ET [HT [T1 [T2 [T3 [T4 [T5 _]]]]]]]. exists T. split; first by rewrite /make Emus /= E /= Ert.
    split; last first.
      split=> //. split=> //. rewrite /mean_data. case: k Hm Emus Hmus => [|l|l||l sd rhos] //. case=> m [Em Hm]. rewrite /mus_of /mean_of. move: Em. rewrite /mean_of. case: (b_means B) => [ms|] //= -> /= [Emus] _.
      move: EM. rewrite -Emus. case: mt Hmt E ET T4 => [g|] // Hmt E ET T4 [l' [Eg [El Hl]]]. exists m, g.2. split=> //. split; first by rewrite T4. move=> j t. rewrite T1 -El => Hj.
      have [r Hr] : exists r, List.nth_error l' j = Some (t, r). move: Hj. rewrite List.nth_error_map. case: (List.nth_error l' j) => [[t1 r]|] //= [<-]. by exists r.
      exists r. split; first by apply: Hl; exact: List.nth_error_In Hr. rewrite Eg /=. clear - Hr. elim: l' j Hr => [|x l IH] [|j] //=; [by case=> ->|exact: IH].
    split; first by rewrite T1; exact: kept_inc. split; first by rewrite T1 T2 !size_map. split; first by rewrite T1 T3 -EF !size_map.
    split.
    - move=> t r. by rewrite T1 T2 zip_map.
    - move=> t S. rewrite T1 T3 -EF zip_fst_snd. exact: ES.
  Qed.

  (** The loop: [I] is an invariant of the world, [ok] what a backtest of predictor i achieves. *)
  Definition step_ok (solve : solver_t n) B k (I : world n -> Prop) (ok : nat -> Z -> 'M[R]_n -> wrow n -> Prop) : Prop :=
    forall i Sg W T, List.nth_error (b_covs B) i = Some Sg -> I W -> causal_trader (b_returns B) Sg (b_start B) (b_end B) T -> trader_ok T -> mean_data B k i T ->
      exists W' T' ws, backtest solve W T (args_of k) = (W', T', None) /\ I W' /\ t_ws T' = Some ws /\ size ws = size (t_times T) /\
        forall j t, List.nth_error (t_times T) j = Some t -> ok i t (nth 0 (t_Sigmas T) j) (nth None ws j).
  Lemma frame_causal f Sg a b T T' : causal_trader f Sg a b T -> t_times T' = t_times T -> t_returns T' = t_returns T -> t_Sigmas T' = t_Sigmas T -> causal_trader f Sg a b T'.
  Proof. by rewrite /causal_trader => H -> -> ->. Qed.
  Lemma loop_ok (solve : solver_t n) B k I ok : good_frame (b_returns B) -> good_names B ->
    (forall i Sg, List.nth_error (b_covs B) i = Some Sg -> covered (b_returns B) Sg (b_start B) (b_end B) /\ mean_ok B k i) ->
    step_ok solve B k I ok -> forall W, I W -> exists W' d, run_backtest solve W B k = (W', Ok d) /\ I W' /\ results B d ok.
  Proof.
    move=> Hf [Hl Hd] Hcov Hstep W0 HI. rewrite /run_backtest.
    suff H : forall covs i acc W, I W -> covs = List.skipn i (b_covs B) -> (i <= List.length (b_covs B))%coq_nat ->
      List.map fst acc = List.firstn i (b_names B) ->
      (forall i' Sg, (i' < i)%coq_nat -> List.nth_error (b_covs B) i' = Some Sg -> exists name T, List.nth_error (b_names B) i' = Some name /\ dict_get String.eqb acc name = Some T /\
         causal_trader (b_returns B) Sg (b_start B) (b_end B) T /\ weights_are Sg T (ok i')) ->
      exists W' d, bt_loop solve W B k i covs acc = (W', Ok d) /\ I W' /\ results B d ok.
      apply: (H (b_covs B) 0%N [::] W0 HI) => //; lia.
    elim=> [|Sg covs IH] i acc W HW Ecov Hi Eacc Hacc.
    - exists W, acc. split=> //. split=> //. have Ei : i = List.length (b_covs B). have := f_equal (@List.length _) Ecov. rewrite List.skipn_length /=. lia.
      split; first by rewrite -Ei. move=> i' Sg Hi'. apply: Hacc => //. rewrite Ei. apply/List.nth_error_Some. by rewrite Hi'.
    - have [Hg Hcovs] := skipn_cons (esym Ecov). have Hlt : (i < List.length (b_covs B))%coq_nat by apply/List.nth_error_Some; rewrite Hg.
      have [Hc Hm] := Hcov _ _ Hg. have [T [ET [HT1 [HT2 [HT3 HT4]]]]] := make_ok Hf Hc Hm.
      have [W' [T' [ws [Eb [HW' [Ews [Esw Hday]]]]]]] := Hstep _ _ _ _ Hg HW HT1 HT2 HT4.
      rewrite /= -/(make B k i Sg) ET Eb. have [name Hname] : exists name, List.nth_error (b_names B) i = Some name.
        case E : (List.nth_error (b_names B) i) => [nm|]; first by exists nm. move/List.nth_error_None: E => E. lia.
      rewrite Hname. have Hnew : ~ List.In name (List.map fst acc).
        rewrite Eacc => Hin0. have [j Hj] := List.In_nth_error _ _ Hin0. have Hji : (j < i)%coq_nat. have := proj1 (List.nth_error_Some (List.firstn i (b_names B)) j). rewrite Hj => /(_ ltac:(discriminate)). rewrite List.firstn_length. lia.
        rewrite nth_error_firstn_lt // in Hj. have Hjl : (j < List.length (b_names B))%coq_nat by apply/List.nth_error_Some; rewrite Hj.
        have := proj1 (List.NoDup_nth_error (b_names B)) Hd j i Hjl. rewrite Hj Hname => /(_ erefl). lia.
      apply: (IH i.+1) => //.
      + rewrite kset_keys Eacc. have -> : List.existsb (String.eqb name) (List.firstn i (b_names B)) = false.
          rewrite -Eacc. apply/negbTE/negP => /List.existsb_exists [x [Hx /String.eqb_eq E]]. apply: Hnew. by rewrite E.
        by rewrite (firstn_S Hname).
      + move=> i' Sg' Hi' Hg'. have [Ei|Hne] := PeanoNat.Nat.eq_dec i' i.
        * rewrite Ei in Hg' *. rewrite Hg' in Hg. case: Hg => ->. exists name, T'. split=> //. split; first by rewrite kset_get String.eqb_refl.
          have := backtest_frame solve W T (args_of k). rewrite Eb /= => [[F1 [F2 [F3 _]]]]. split; first exact: (frame_causal HT1).
          exists ws. split=> //. rewrite F2. split=> // j t Hj. have Hjs : (j < size (t_times T))%N by apply/ltP/List.nth_error_Some; rewrite Hj.
          have [_ [_ [E3 [_ E5]]]] := HT1. exists (nth 0 (t_Sigmas T) j), (nth None ws j). split; last first.
            split; last exact: Hday. apply: nth_error_nth. by rewrite Esw.
          apply: E5. apply/In_zip. exists j. split=> //. apply: nth_error_nth. by rewrite E3.
        * have [|nm [T0 [H1 [H2 H3]]]] := Hacc i' Sg' _ Hg'; first lia. exists nm, T0. split=> //. split=> //. rewrite kset_get. case: String.eqb_spec => [E|] //.
          have Hlt2 : (i' < List.length (b_names B))%coq_nat by apply/List.nth_error_Some; rewrite H1.
          have := proj1 (List.NoDup_nth_error (b_names B)) Hd i' i Hlt2. rewrite H1 Hname E => /(_ erefl). by [].
  Qed.
End Main.
