(** * Growth and drawdown. *)
From Coq Require Import Reals ZArith String List Lia Lra.
Set Warnings "-notation-overridden,-ambiguous-paths".
From mathcomp Require Import all_ssreflect all_algebra.
From mathcomp.zify Require Import zify_ssreflect.
From Verif Require Import RStruct MatR Num Py Trader SpecTrader.
Set Implicit Arguments.
Unset Strict Implicit.
Unset Printing Implicit Defensive.
Import GRing.Theory.
Local Open Scope ring_scope.
Delimit Scope R_scope with re.

Lemma growth_size V af rets : size (growth V af rets) = size rets.
Proof. by elim: rets V => [|r rets IH] V //=; rewrite IH. Qed.
Lemma growth_nth V af rets t : (t < size rets)%N ->
  nth R0 (growth V af rets) t = V * \prod_(s < t.+1) (1 + nth R0 rets s / af)%re.
Proof.
  elim: rets V t => [|r rets IH] V [|t] //= Ht.
  - by rewrite big_ord_recl big_ord0 mulr1.
  - rewrite IH // [in RHS]big_ord_recl mulrA. congr (_ * _).
Qed.
Lemma growth_pos V af rets : (0 < V)%re -> (forall r, r \in rets -> (0 < 1 + r / af)%re) -> forall x, x \in growth V af rets -> (0 < x)%re.
Proof.
  elim: rets V => [|r rets IH] V HV Hr x //=. rewrite in_cons => /orP [/eqP ->|].
  - apply: Rmult_lt_0_compat => //. apply: Hr. exact: mem_head.
  - apply: IH => [|q Hq]; last by apply: Hr; rewrite in_cons Hq orbT. apply: Rmult_lt_0_compat => //. apply: Hr. exact: mem_head.
Qed.

Ltac rdec H := (match goal with |- context [Rlt_dec ?a ?b] => destruct (Rlt_dec a b) as [H|H] end); cbn [is_left].
Ltac rdecE H := (match goal with |- context [Req_EM_T ?a ?b] => destruct (Req_EM_T a b) as [H|H] end); cbn [is_left].

Section Drawdown.
  Lemma fall_cat l l' s t : (s <= t < size l)%N -> fall (l ++ l') s t = fall l s t.
  Proof. move=> H. rewrite /fall !nth_cat. have Hs : (s < size l)%N by lia. have Ht : (t < size l)%N by lia. by rewrite Hs Ht. Qed.
  Lemma dd_loop : forall post pre m p, (forall x, x \in pre ++ post -> (0 < x)%re) -> p \in pre -> (forall x, x \in pre -> (x <= p)%re) ->
    is_max_drawdown pre m -> exists dd, drawdown_loop m p post = Ok dd /\ is_max_drawdown (pre ++ post) dd.
  Proof.
    elim=> [|V post IH] pre m p Hpos Hp Hmax Hm /=.
    - exists m. by rewrite cats0.
    - set p' := if Rlt_dec p V then V else p.
      have HV : (0 < V)%re by apply: Hpos; rewrite mem_cat mem_head orbT.
      have Hp0 : (0 < p)%re by apply: Hpos; rewrite mem_cat Hp.
      have Hp' : p' \in pre ++ [:: V] by rewrite /p' mem_cat inE; rdec Hd; rewrite ?eqxx ?Hp ?orbT.
      have Hp'0 : (0 < p')%re by rewrite /p'; rdec Hd.
      have Hmax' x : x \in pre ++ [:: V] -> (x <= p')%re.
        rewrite mem_cat inE /p' => /orP [/Hmax Hx|/eqP ->]; rdec Hlt; lra.
      rdecE H; first by lra.
      rewrite -cat1s catA. apply: IH => //; first by move=> x; rewrite -catA; exact: Hpos.
      set dd := ((p' - V) / p')%re.
      have Hnew s : (s <= size pre)%N -> (fall (pre ++ [:: V]) s (size pre) <= dd)%re.
        move=> Hs. rewrite /fall [nth R0 (pre ++ [:: V]) (size pre)]nth_cat ltnn subnn /dd. change (nth R0 [:: V] 0) with V.
        have Hx : nth R0 (pre ++ [:: V]) s \in pre ++ [:: V] by apply: mem_nth; rewrite size_cat addn1 ltnS.
        have Hx0 : (0 < nth R0 (pre ++ [:: V]) s)%re.
          apply: Hpos. move: Hx. rewrite !mem_cat !inE => /orP [->//|->]. by rewrite orbT.
        have Hxm := Hmax' _ Hx. move: (nth _ _ s) Hx0 Hxm => y Hy Hyp.
        have -> : ((y - V) / y = 1 - V * / y)%re by field; lra. have -> : ((p' - V) / p' = 1 - V * / p')%re by field; lra.
        have : (/ p' <= / y)%re by apply: Rinv_le_contravar. nra.
      have Hatt : exists s, (s <= size pre)%N /\ dd = fall (pre ++ [:: V]) s (size pre).
        have Hi := nth_index R0 Hp'. exists (index p' (pre ++ [:: V])). split.
        - move: Hp'. by rewrite -index_mem size_cat addn1 ltnS.
        - by rewrite /fall Hi nth_cat ltnn subnn.
      have [[s0 [t0 [Hst0 Hm0]]] Hle] := Hm.
      have Hold s t : (s <= t < size pre)%N -> (fall (pre ++ [:: V]) s t <= m)%re by move=> Hst; rewrite fall_cat //; exact: Hle.
      split.
      + rdec Hlt.
        * have [s [Hs Hd]] := Hatt. exists s, (size pre). split=> //. by rewrite size_cat addn1 ltnSn Hs.
        * exists s0, t0. split; first by rewrite size_cat; lia. by rewrite fall_cat.
      + move=> s t. rewrite size_cat addn1 => Hst. case Et: (t == size pre).
        * move/eqP: Et => Et. subst t. have := Hnew s ltac:(lia). rdec Hlt => Hx; [exact: Hx|apply: Rle_trans Hx _; exact: Rnot_lt_le].
        * have Hst' : (s <= t < size pre)%N by move: Hst; rewrite ltnS => /andP [-> H2] /=; rewrite ltn_neqAle H2 andbT; move/negbT: Et.
          have := Hold s t Hst'. rdec Hlt => Hx; [apply: Rle_trans Hx _; exact: Rlt_le|exact: Hx].
  Qed.
  Lemma drawdown_main n (T : trader n) Vs : t_Vs T = Some Vs -> Vs <> [::] -> (forall V, V \in Vs -> (0 < V)%re) ->
    exists dd, compute_max_drawdown T = Ok dd /\ is_max_drawdown Vs dd.
  Proof.
    move=> HT Hne Hpos. rewrite /compute_max_drawdown HT. case: Vs Hne Hpos {HT} => [//|V0 Vs] _ Hpos /=.
    have HV : (0 < V0)%re by apply: Hpos; exact: mem_head.
    rdec H; first by lra. rdecE H'; first by lra.
    have -> : ((V0 - V0) / V0 = 0)%re by field; lra. rdec H''; first by lra.
    rewrite -cat1s. apply: dd_loop => //; [exact: mem_head|by move=> x; rewrite inE => /eqP ->; lra|].
    split.
    - exists 0%N, 0%N. split=> //. rewrite /fall /=. toR. eqR. field. lra.
    - move=> s t /= Hst. have [-> ->] : s = 0%N /\ t = 0%N by lia. rewrite /fall /=. right. toR. field. lra.
  Qed.
  Lemma max_unique Vs d1 d2 : is_max_drawdown Vs d1 -> is_max_drawdown Vs d2 -> d1 = d2.
  Proof.
    move=> [[s [t [H1 E1]]] L1] [[s' [t' [H2 E2]]] L2]. have := L2 _ _ H1. have := L1 _ _ H2. rewrite -E1 -E2 => A B. apply: Rle_antisym => //.
  Qed.
  Lemma dd_range (Vs : seq R) dd : (forall V, V \in Vs -> (0 < V)%re) -> is_max_drawdown Vs dd ->
    (0 <= dd < 1)%re /\ (dd = 0 <-> forall s t, (s <= t < size Vs)%N -> (nth R0 Vs s <= nth R0 Vs t)%re).
  Proof.
    move=> Hpos [[s0 [t0 [H0 E0]]] Hle].
    have Hn s : (s < size Vs)%N -> (0 < nth R0 Vs s)%re by move=> H; apply: Hpos; exact: mem_nth.
    have Hge : (0 <= dd)%re.
      have := Hle s0 s0 ltac:(lia). rewrite /fall. have -> : ((nth R0 Vs s0 - nth R0 Vs s0) / nth R0 Vs s0 = 0)%re.
        field. have := Hn s0 ltac:(lia). lra. by [].
    have Hlt : (dd < 1)%re.
      rewrite E0 /fall. have := Hn s0 ltac:(lia). have := Hn t0 ltac:(lia). move: (nth _ _ s0) (nth _ _ t0) => a b Hb Ha.
      have -> : ((a - b) / a = 1 - b * / a)%re by field; lra. have := Rinv_0_lt_compat _ Ha. nra.
    split=> //. split.
    - move=> Hd s t Hst. have := Hle s t Hst. rewrite Hd /fall. have := Hn s ltac:(lia). move: (nth _ _ s) (nth _ _ t) => a b Ha.
      have -> : ((a - b) / a = 1 - b * / a)%re by field; lra. move=> H. toR_in H.
      have : (1 <= b * / a)%re by lra. move/(Rmult_le_compat_r a _ _ (Rlt_le _ _ Ha)). have -> : (b * / a * a = b)%re by field; lra. lra.
    - move=> Hmon. apply: Rle_antisym => //. rewrite E0 /fall. have := Hmon _ _ H0. have := Hn s0 ltac:(lia). move: (nth _ _ s0) (nth _ _ t0) => a b Ha Hab.
      have -> : ((a - b) / a = - ((b - a) * / a))%re by field; lra. have Hia := Rinv_0_lt_compat _ Ha. toR. have := Rmult_le_pos (b - a)%re (/ a)%re ltac:(lra) ltac:(lra). move: (_ * / a)%re => u Hu. lra.
  Qed.
  Lemma dd_scale c (Vs : seq R) dd : c <> R0 -> (forall V, V \in Vs -> V <> R0) -> is_max_drawdown Vs dd -> is_max_drawdown [seq (c * V)%re | V <- Vs] dd.
  Proof.
    move=> Hc Hnz [[s0 [t0 [H0 E0]]] Hle].
    have Hf s t : (s <= t < size Vs)%N -> fall [seq (c * V)%re | V <- Vs] s t = fall Vs s t.
      move=> /andP [H1 H2]. have H3 := leq_ltn_trans H1 H2. rewrite /fall !(nth_map R0) //. have Hn : nth R0 Vs s <> R0 by apply: Hnz; apply: mem_nth. field. by split.
    split; first by exists s0, t0; rewrite size_map Hf.
    move=> s t. rewrite size_map => H. rewrite Hf //. exact: Hle.
  Qed.
End Drawdown.

(** Risk-adjusted returns. *)
Lemma rmean_scale (c : R) (l : seq R) : rmean [seq (c * x)%R | x <- l] = c * rmean l.
Proof. rewrite /rmean size_map big_map -big_distrr /=. toR. eqR. rewrite /Rdiv. exact: Rmult_assoc. Qed.
Lemma rstd_scale (c : R) (l : seq R) : rstd [seq (c * x)%R | x <- l] = Rabs c * rstd l.
Proof.
  rewrite /rstd rmean_scale.
  have -> : rmean [seq (x - c * rmean l) * (x - c * rmean l) | x <- [seq (c * x)%R | x <- l]] = c * c * rmean [seq (x - rmean l) * (x - rmean l) | x <- l].
    rewrite -(rmean_scale (c * c)). congr rmean. rewrite -!map_comp. apply: eq_map => x /=. Rring.
  rewrite -[c * c]/(Rmult c c) -[(Rmult c c) * _]/(Rmult _ _) sqrt_mult_alt; last by nra.
  by rewrite -/(Rsqr c) sqrt_Rsqr_abs.
Qed.
