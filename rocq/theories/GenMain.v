(** * The generative mode: final forms. *)
From Coq Require Import Reals Lra List Lia.
Set Warnings "-notation-overridden,-ambiguous-paths".
From mathcomp Require Import all_ssreflect all_algebra.
From Verif Require Import RStruct MatR Num Py Gen SpecGen GenProps.
Set Implicit Arguments.
Unset Strict Implicit.
Unset Printing Implicit Defensive.
Import GRing.Theory.
Local Open Scope ring_scope.
Delimit Scope R_scope with re.

Section Main.
  Variables (n : nat) (T : Type).
  Notation row := 'rV[option R]_n.
  Implicit Types (data : seq (T * row)) (draw : nat -> 'M[option R]_n -> res row).
  Local Notation none := (const_mx None : row).

  Lemma est_events h (pre : seq row) data : est h pre data =
    [seq Estimate x.1 x.2 | x <- zip (map fst data) [seq ewma_of h (pre ++ take t.+1 (map snd data)) | t <- iota 0 (size data)] & ~~ all_nan x.2].
  Proof.
  elim: data pre => [|r rows IH] pre //. rewrite [est h pre (r :: rows)]/= IH /=.
  rewrite take0 cats1.
  have -> : [seq ewma_of h (pre ++ take t.+1 (r.2 :: map snd rows)) | t <- iota 1 (size rows)] =
    [seq ewma_of h (rcons pre r.2 ++ take t.+1 (map snd rows)) | t <- iota 0 (size rows)].
    rewrite (iotaDl 1 0) -map_comp. apply: eq_map => t /=. by rewrite -cats1 -catA.
  by case: all_nan.
  Qed.

  Theorem gen_events draw data h mp N g : h <> 0%re -> (mp <= 1)%N -> (0 < size data)%N ->
    exists xs err, ewma_cov draw data h mp N g =
      ([seq Estimate x.1 x.2 | x <- zip (map fst data) [seq ewma_of h (take t.+1 (map snd data)) | t <- iota 0 (size data)] & ~~ all_nan x.2]
       ++ [seq Sample k (nth none xs k) | k <- iota 0 (size xs)], err) /\
      (size xs <= N)%N /\ (err = None -> size xs = N).
  Proof.
  move=> Hh Hm Hd. have [xs [err [E [Hs [A B]]]]] := run Hh draw N g Hm Hd. exists xs, err. split; first by rewrite E est_events.
  split=> //. case: B => [[]//|[_ [[e -> _]//|[_ [-> _]//]]]].
  Qed.

  Theorem gen_errors draw data h mp N g :
    (h = 0%re -> ewma_cov draw data h mp N g = ([::], Some TypeError)) /\
    (h <> 0%re -> data = [::] -> ewma_cov draw data h mp N g = ([::], Some IndexError)) /\
    (h <> 0%re -> data <> [::] -> (2 <= mp)%N -> ewma_cov draw data h mp N g = ([::], Some ValueError)).
  Proof.
  rewrite /ewma_cov /general. split; [|split].
  - move=> ->. by rewrite eqxx.
  - move=> Hh ->. by case: eqP.
  - move=> Hh. case: data => [//|r rows] _ H. case: eqP => // _. rewrite /f_item subn_gt0 H. by [].
  Qed.

  Lemma samples_cat (a b : seq (event n T)) : samples (a ++ b) = samples a ++ samples b.
  Proof. exact: pmap_cat. Qed.
  Lemma samples_S xs i : samples [seq @Sample n T k (nth none xs (k - i)) | k <- iota i (size xs)] = xs.
  Proof.
  elim: xs i => [|x xs IH] i //=. rewrite subnn /=. congr cons. rewrite -[RHS](IH i.+1). congr samples.
  apply/eq_in_map => k. rewrite mem_iota => /andP [Hk _]. have -> : (k - i = (k - i.+1).+1)%N by rewrite subnS prednK // subn_gt0. by [].
  Qed.
  Lemma samples_run h data (xs : seq row) : samples (est h [::] data ++ [seq @Sample n T k (nth none xs k) | k <- iota 0 (size xs)]) = xs.
  Proof.
  rewrite samples_cat est_samples /= -[RHS](samples_S xs 0). congr samples. apply: eq_map => k. by rewrite subn0.
  Qed.

  Theorem gen_samples draw data h mp N g ev err : h <> 0%re -> (mp <= 1)%N -> (0 < size data)%N ->
    ewma_cov draw data h mp N g = (ev, err) ->
    let xs := samples ev in let sigma k := ewma_of h (map snd data ++ take k (if g is Some rows then rows else xs)) in
    (forall k, (k < size xs)%N -> draw k (sigma k) = Ok (nth none xs k)) /\
    (size xs = N /\ err = None \/ (size xs < N)%N /\
     ((exists2 e, err = Some e & draw (size xs) (sigma (size xs)) = Raise e) \/ (err = Some IndexError /\ exists2 rows, g = Some rows & size rows = size xs))).
  Proof.
  move=> Hh Hm Hd E. have [xs [err' [E' [Hs [A B]]]]] := run Hh draw N g Hm Hd.
  move: E; rewrite E'; case=> <- <-. rewrite /= samples_run.
  have S k : (map snd data ++ take k (if g is Some rows then rows else xs)) = (map snd data ++ (if g is Some g then take k g else take k xs)) by case: (g).
  split; first by move=> k Hk; rewrite S; case: (A k Hk).
  case: B => [|[B1 B2]]; [by left|right]. split=> //. rewrite S. case: B2 => [B2|[_ [-> [g' Hg Hg']]]]; [by left|right].
  split=> //. exists g' => //. apply/eqP. rewrite eqn_leq Hg' /=. case Ex: (size xs) => [//|k].
  have := A k. rewrite Ex ltnSn => /(_ isT) [_]. by rewrite Hg.
  Qed.

  (** ** Without missing values *)
  Definition Aof h (rows : seq row) : 'M[R]_n := \matrix_(i, j) (WS (beta_of h) (size rows) (fun s => ret rows s i * ret rows s j)%R / WW (beta_of h) (size rows))%re.
  Lemma gap_full (rows : seq row) i : (forall x, List.In x rows -> is_full x) -> gap rows i = false.
  Proof.
  elim: rows => //= x rows IH H. rewrite IH; last by move=> y Hy; apply: H; right.
  have [B HB] := H x (or_introl erefl). by rewrite HB.
  Qed.
  Lemma ewma_full h (rows : seq row) : h <> 0%re -> (forall x, List.In x rows -> is_full x) -> full (ewma_of h rows) (Aof h rows).
  Proof. move=> Hh H i j. by rewrite ewma_entry // !gap_full // mxE. Qed.
  Lemma Aof_sym h rows : (Aof h rows)^T = Aof h rows.
  Proof. apply/matrixP => i j. rewrite !mxE. congr Rdiv. apply: eq_bigr => s _. by rewrite (mulrC (ret rows s j)). Qed.
  Definition inner (rows : seq row) s (w : 'rV[R]_n) : R := \sum_j ret rows s j * w ord0 j.
  Lemma WS_scale b m z c : WS b m (fun s => z s * c)%R = (WS b m z * c)%R.
  Proof. rewrite /WS mulr_suml. apply: eq_bigr => s _. by rewrite mulrA. Qed.
  Lemma AC (a b c d e : R) : (a * ((b * c) * (d * e)) = c * (a * (b * d)) * e)%R.
  Proof. change ((a * ((b * c) * (d * e)) = c * (a * (b * d)) * e)%re). ring. Qed.
  Lemma Aof_quad h rows w : ((w *m Aof h rows *m w^T) ord0 ord0 = WS (beta_of h) (size rows) (fun s => inner rows s w * inner rows s w)%R * / WW (beta_of h) (size rows))%re.
  Proof.
  rewrite mxE. set b := beta_of h. set m := size rows. set c := (/ WW b m)%re.
  have -> : (WS b m (fun s => inner rows s w * inner rows s w)%R * c)%re = \sum_i \sum_j (w ord0 j * (WS b m (fun s => ret rows s j * ret rows s i) * c) * w ord0 i)%R.
    rewrite -[LHS]/(_ * c)%R. under eq_bigr do under eq_bigr do rewrite mulrA -mulrA (mulrC c) mulrA.
    under eq_bigr do rewrite -mulr_suml. rewrite -mulr_suml. congr (_ * _)%R.
    rewrite /WS. 
    transitivity (\sum_i \sum_j \sum_(s < m) b ^+ (m - s.+1) * ((ret rows s j * w ord0 j) * (ret rows s i * w ord0 i)))%R; last first.
      apply: eq_bigr => i _. apply: eq_bigr => j _. rewrite mulr_sumr mulr_suml. apply: eq_bigr => s _.
      exact: AC.
    apply/esym. under eq_bigr do rewrite exchange_big /=. rewrite exchange_big /=. apply: eq_bigr => s _.
    under eq_bigr do rewrite -mulr_sumr. rewrite -mulr_sumr. congr (_ * _)%R. rewrite /inner mulr_sumr. apply: eq_bigr => i _. by rewrite mulr_suml.
  apply: eq_bigr => i _. rewrite !mxE mulr_suml. apply: eq_bigr => j _. by rewrite !mxE.
  Qed.
  Lemma WS_ge0 h m z : (forall s, (s < m)%N -> (0 <= z s)%re) -> (0 <= WS (beta_of h) m z)%re.
  Proof.
  have b0 := beta_pos h. elim: m => [|m IH] H. rewrite /WS big_ord0. exact: Rle_refl.
  rewrite WS_S. have P := IH (fun s Hs => H s (ltnW Hs)). have Q := H m (ltnSn m). have := Rmult_le_pos _ _ (Rlt_le _ _ b0) P. lra.
  Qed.
  Lemma Aof_psd h rows (w : 'rV[R]_n) : (0 < size rows)%N -> (0 <= (w *m Aof h rows *m w^T) ord0 ord0)%re.
  Proof.
  move=> Hr. rewrite Aof_quad. apply: Rmult_le_pos. apply: WS_ge0 => s _. exact: Rle_0_sqr.
  apply: Rlt_le. apply: Rinv_0_lt_compat. apply: WW_pos => //. exact: beta_pos.
  Qed.

  Theorem gen_finite draw data h mp N g ev err : h <> 0%re -> (mp <= 1)%N -> (0 < size data)%N -> (0 < n)%N ->
    (forall x, List.In x data -> is_full x.2) -> ewma_cov draw data h mp N g = (ev, err) ->
    map fst (estimates ev) = map fst data /\
    forall t e, List.In (t, e) (estimates ev) -> exists A, full e A /\ A^T = A /\ forall w : 'rV[R]_n, (0 <= (w *m A *m w^T) ord0 ord0)%re.
  Proof.
  move=> Hh Hm Hd Hn Hf E. have [xs [err' [E' _]]] := run Hh draw N g Hm Hd.
  move: E; rewrite E'; case=> <- _.
  have Es : estimates (est h [::] data ++ [seq @Sample n T k (nth none xs k) | k <- iota 0 (size xs)]) = estimates (est h [::] data).
    rewrite /estimates pmap_cat -[RHS]cats0. congr cat. by elim: (iota _ _).
  have F t : (forall x, List.In x (take t (map snd data)) -> is_full x).
    move=> x. elim: (data) t Hf => [|r rs IH] [|t] //= H [<-|Hx]; first by apply: (H r); left.
    by apply: (IH t) => // y Hy; apply: H; right.
  rewrite Es est_nth.
  have -> : [seq x <- zip (map fst data) [seq ewma_of h ([::] ++ take t.+1 (map snd data)) | t <- iota 0 (size data)] | ~~ all_nan x.2] =
    zip (map fst data) [seq ewma_of h (take t.+1 (map snd data)) | t <- iota 0 (size data)].
    apply/all_filterP. 
    suff : all (fun e => ~~ all_nan e) [seq ewma_of h (take t.+1 (map snd data)) | t <- iota 0 (size data)].
      move: [seq _ | t <- _] (map fst data). elim=> [|e es IH] [|t ts] //= /andP [-> H]. exact: IH.
    rewrite all_map. apply/allP => t _ /=. apply/negP => /forallP /(_ (Ordinal Hn)) /forallP /(_ (Ordinal Hn)).
    by rewrite (ewma_full Hh (F t.+1)).
  split.
    rewrite -map_comp. rewrite -[RHS](@unzip1_zip _ _ (map fst data) [seq ewma_of h (take t.+1 (map snd data)) | t <- iota 0 (size data)]); last by rewrite !size_map size_iota.
    by apply: eq_map.
  move=> t e H.
  have : exists t', e = ewma_of h (take t'.+1 (map snd data)).
    move: H. elim: (iota 0 (size data)) (map fst data) => [|k ks IH] [|u us] //= [[_ <-]|H]; [by exists k|exact: IH H].
  case=> t' ->. exists (Aof h (take t'.+1 (map snd data))). split; first by apply: ewma_full => //; exact: F. split; first exact: Aof_sym.
  move=> w. apply: Aof_psd. by case: (data) Hd.
  Qed.

  (** ** Samples *)
  Lemma In_cat (a b : seq row) x : List.In x (a ++ b) -> List.In x a \/ List.In x b.
  Proof. exact: (proj1 (List.in_app_iff a b x)). Qed.
  Lemma In_take (a : seq row) k x : List.In x (take k a) -> exists2 i, (i < minn k (size a))%N & x = nth none a i.
  Proof.
  elim: a k => [|y a IH] [|k] //= [<-|/IH [i Hi ->]]; first by exists 0%N; rewrite ?minnSS.
  by exists i.+1; rewrite ?minnSS.
  Qed.
  Lemma In_map_snd data x : List.In x (map snd data) -> exists2 r, List.In r data & x = r.2.
  Proof. elim: data => //= r data IH [<-|/IH [r' H ->]]; [exists r => //; by left|exists r' => //; by right]. Qed.

  Lemma draw_ok draw h rows k : gaussian draw -> h <> 0%re -> (0 < size rows)%N -> (forall x, List.In x rows -> is_full x) ->
    exists x y z (B : 'M[R]_n), draw k (ewma_of h rows) = Ok x /\ full x y /\ B^T *m B = Aof h rows /\ y = z *m B.
  Proof.
  move=> G Hh Hr Hf. have [_ H] := G k (ewma_of h rows). apply: H; [by apply: ewma_full|exact: Aof_sym|].
  move=> w. exact: Aof_psd.
  Qed.

  Lemma samples_full draw data h mp N g ev err : gaussian draw -> h <> 0%re -> (mp <= 1)%N -> (0 < size data)%N ->
    (forall x, List.In x data -> is_full x.2) -> (forall rows x, g = Some rows -> List.In x rows -> is_full x) ->
    ewma_cov draw data h mp N g = (ev, err) -> forall k, (k < size (samples ev))%N -> is_full (nth none (samples ev) k).
  Proof.
  move=> G Hh Hm Hd Hf Hg E. have [A _] := gen_samples Hh Hm Hd E. move=> k. elim/ltn_ind: k => k IH Hk.
  have := A k Hk.
  set rows := (_ ++ _). move=> D. have [x [y [z [B [D' [F _]]]]]] : exists x y z (B : 'M[R]_n), draw k (ewma_of h rows) = Ok x /\ full x y /\ B^T *m B = Aof h rows /\ y = z *m B.
    apply: draw_ok => //; first by rewrite /rows size_cat size_map ltn_addr.
    move=> x /In_cat [/In_map_snd [r Hr ->]|]; first exact: Hf.
    case Eg: g => [rs|]. move=> /In_take [i Hi ->]. apply: (Hg rs) => //.
      move: Hi. rewrite leq_min => /andP [_]. elim: (rs) (i) => [|u us IH'] [|j] //= H; [by left|right; exact: IH'].
    move=> /In_take [i Hi ->]. move: Hi. rewrite leq_min => /andP [H1 H2]. exact: IH.
  rewrite D' in D. case: D => <-. by exists y.
  Qed.

  Theorem gen_total draw data h mp N g ev err : gaussian draw -> h <> 0%re -> (mp <= 1)%N -> (0 < size data)%N ->
    (forall x, List.In x data -> is_full x.2) -> (forall rows x, g = Some rows -> List.In x rows -> is_full x) ->
    ewma_cov draw data h mp N g = (ev, err) ->
    (forall k, (k < size (samples ev))%N -> is_full (nth none (samples ev) k)) /\
    match g with
    | None => size (samples ev) = N /\ err = None
    | Some rows => size (samples ev) = minn N (size rows) /\ err = (if (N <= size rows)%N then None else Some IndexError)
    end.
  Proof.
  move=> G Hh Hm Hd Hf Hg E. have SF := samples_full G Hh Hm Hd Hf Hg E. split=> //.
  have [A B] := gen_samples Hh Hm Hd E.
  have Q : exists x, draw (size (samples ev)) (ewma_of h (map snd data ++ take (size (samples ev)) (if g is Some rows then rows else samples ev))) = Ok x.
    set rows := (_ ++ _). have [x [y [z [C [D' _]]]]] : exists x y z (B : 'M[R]_n), draw (size (samples ev)) (ewma_of h rows) = Ok x /\ full x y /\ B^T *m B = Aof h rows /\ y = z *m B.
      apply: draw_ok => //; first by rewrite /rows size_cat size_map ltn_addr.
      move=> x /In_cat [/In_map_snd [r Hr ->]|]; first exact: Hf.
      case Eg: g => [rs|]. move=> /In_take [i Hi ->]. apply: (Hg rs) => //.
        move: Hi. rewrite leq_min => /andP [_]. elim: (rs) (i) => [|u us IH'] [|j] //= H; [by left|right; exact: IH'].
      move=> /In_take [i Hi ->]. move: Hi. rewrite leq_min => /andP [H1 H2]. exact: SF.
    by exists x.
  case: Q => x Q. case: B => [[B1 B2]|[B1 [[e _]|[Be [rs Hr Hs]]]]]; last first.
  - rewrite Hr Hs Be. rewrite leqNgt B1 /=. by split=> //; apply/esym/minn_idPr/ltnW.
  - by rewrite Q.
  case Eg: g => [rs|] //. rewrite B1 B2. suff H : (N <= size rs)%N by rewrite H; split=> //; apply/esym/minn_idPl.
  have [xs [err' [E' [_ [A' _]]]]] := run Hh draw N g Hm Hd. move: E. rewrite E'; case=> Ev _. have Exs : samples ev = xs by rewrite -Ev samples_run.
  case EN: N => [//|k]. have := A' k. rewrite -Exs B1 EN ltnSn => /(_ isT) [_]. by rewrite Eg.
  Qed.

  Theorem gen_missing draw data h mp N g : gaussian draw -> h <> 0%re -> (mp <= 1)%N -> (0 < N)%N ->
    (exists2 x, List.In x data & ~ is_full x.2) ->
    samples (ewma_cov draw data h mp N g).1 = [::] /\ (ewma_cov draw data h mp N g).2 = Some LinAlgError.
  Proof.
  move=> G Hh Hm HN [x Hx Hn]. have Hd : (0 < size data)%N by case: (data) Hx.
  case E: (ewma_cov _ _ _ _ _ _) => [ev err]. have [A B] := gen_samples Hh Hm Hd E.
  have D : draw 0%N (ewma_of h (map snd data ++ [::])) = Raise LinAlgError.
    have [H _] := G 0%N (ewma_of h (map snd data ++ [::])). apply: H. rewrite cats0. case=> C HC. apply: Hn.
    have Gi i : gap (map snd data) i = false.
      have := HC i i. rewrite ewma_entry //. by case: (gap _ i).
    exists (\matrix_(u, i) odflt 0%re (x.2 ord0 i)) => u i. rewrite mxE ord1.
    suff : isSome (x.2 ord0 i) by case: (x.2 ord0 i).
    move: (Gi i) Hx. rewrite /gap. elim: (data) => //= r rs IH /norP [H1 H2] [<-|Hr]; [by rewrite negbK in H1|].
    apply: IH => //. exact: negbTE.
  case Es: (samples ev) => [|y ys]; last first.
    have := A 0%N. rewrite Es /= take0 D => H. by have := H isT.
  split=> //=. case: B => [[B _]|[_ [[e -> B]|[Be [rs Hr Hs]]]]]; first by rewrite Es in B; rewrite -B in HN.
    rewrite Es /= take0 D in B. by case: B => <-.
  have [xs [err' [E' [_ [A' B']]]]] := run Hh draw N g Hm Hd. move: E. rewrite E'; case=> Ev Er.
  have Exs : xs = [::] by rewrite -Es -Ev samples_run.
  case: B' => [[B' _]|[_ [[e Ee B']|[[y B'] _]]]]; first by rewrite -B' Exs in HN.
    move: B'. rewrite Exs /=. have -> : (if g is Some g0 then take 0 g0 else [::]) = [::] by case: (g) => [?|]; rewrite ?take0.
    rewrite D => -[Ee']. by rewrite -Er Ee -Ee'.
  move: B'. rewrite Exs /=. by case: (g) => [?|]; rewrite ?take0 D.
  Qed.

  (** ** The samples stay in the span of the data *)
  Lemma earns_inner (rows : seq row) s (w : 'rV[R]_n) : (s < size rows)%N -> earns (nth none rows s) w 0%re -> inner rows s w = 0%R.
  Proof.
  move=> Hs [y Fy E]. rewrite -[RHS]E mxE. apply: eq_bigr => j _. by rewrite mxE /ret Fy.
  Qed.
  Lemma Aof_kernel h rows (w : 'rV[R]_n) : (forall x, List.In x rows -> earns x w 0%re) -> ((w *m Aof h rows *m w^T) ord0 ord0 = 0)%re.
  Proof.
  move=> H. rewrite Aof_quad.
  have -> : WS (beta_of h) (size rows) (fun s => inner rows s w * inner rows s w)%R = 0%R; last by rewrite Rmult_0_l.
  rewrite /WS. apply: big1 => s _. rewrite earns_inner //; first by rewrite !mulr0.
  apply: H. have := ltn_ord s. elim: (rows) (nat_of_ord s) => [|u us IH] [|k] //= Hk; [by left|right; exact: IH].
  Qed.
  Lemma norm0 (v : 'cV[R]_n) : (v^T *m v) ord0 ord0 = 0%re -> v = 0.
  Proof.
  move=> H. exact: nsq_eq0.
  Qed.

  Theorem gen_span draw data h mp N g ev err (w : 'rV[R]_n) : gaussian draw -> h <> 0%re -> (mp <= 1)%N -> (0 < size data)%N ->
    (forall x, List.In x data -> earns x.2 w 0%re) -> (forall rows x, g = Some rows -> List.In x rows -> earns x w 0%re) ->
    ewma_cov draw data h mp N g = (ev, err) -> forall k, (k < size (samples ev))%N -> earns (nth none (samples ev) k) w 0%re.
  Proof.
  move=> G Hh Hm Hd Hf Hg E. have [A _] := gen_samples Hh Hm Hd E. move=> k. elim/ltn_ind: k => k IH Hk.
  have := A k Hk. set rows := (_ ++ _). move=> D.
  have HR x : List.In x rows -> earns x w 0%re.
    move=> /In_cat [/In_map_snd [r Hr ->]|]; first exact: Hf.
    case Eg: g => [rs|]. move=> /In_take [i Hi ->]. apply: (Hg rs) => //.
      move: Hi. rewrite leq_min => /andP [_]. elim: (rs) (i) => [|u us IH'] [|j] //= H; [by left|right; exact: IH'].
    move=> /In_take [i Hi ->]. move: Hi. rewrite leq_min => /andP [H1 H2]. exact: IH.
  have [x [y [z [B [D' [F [HB Hy]]]]]]] : exists x y z (B : 'M[R]_n), draw k (ewma_of h rows) = Ok x /\ full x y /\ B^T *m B = Aof h rows /\ y = z *m B.
    apply: draw_ok => //; first by rewrite /rows size_cat size_map ltn_addr.
    by move=> x /HR [y Fy _]; exists y.
  rewrite D' in D. case: D => <-. exists y => //.
  have K : B *m w^T = 0.
    apply: norm0. by rewrite trmx_mul trmxK mulmxA -(mulmxA w) HB Aof_kernel.
  by rewrite Hy -mulmxA K mulmx0 mxE.
  Qed.

  (** ** Determinism: prefixes and the future of the data *)
  Lemma sample_prefix draw b g m d i k e : (sample_loop T draw b g m i k e).1 = take m (sample_loop T draw b g (m + d) i k e).1.
  Proof.
  elim: m i k e => [|m IH] i k e; first by rewrite take0.
  rewrite addSn /=. case: (draw i e) => [x|//]. case: (match g with Some _ => _ | None => _ end) => [r|//].
  have := IH i.+1 k.+1 (step b (k + 1 + 1) e (outer r)). case: (sample_loop _ _ _ _ _ _ _ _) => ev err.
  by case: (sample_loop _ _ _ _ _ _ _ _) => ev' err' /= ->.
  Qed.
  Lemma samples_spec draw data h mp N g : h <> 0%re -> (mp <= 1)%N -> (0 < size data)%N ->
    exists e, samples (ewma_cov draw data h mp N g).1 = samples (sample_loop T draw (beta_of h) g N 0 (size data).-1 e).1 /\ e = ewma_of h (map snd data).
  Proof.
  move=> Hh Hm. case: data => [//|r rows] _. exists (ewma_of h (map snd (r :: rows))). split=> //.
  rewrite /ewma_cov /general. case: eqP => // _. rewrite f_item1 // (outer_ewma Hh r.2) [consume _ _]/=.
  rewrite -[1%N]/(size [:: r.2]) consume_loop //.
  have -> : (if rows is [::] then (ewma_of h [:: r.2], 0%N) else (ewma_of h ([:: r.2] ++ map snd rows), (size [:: r.2] + size rows).-1)) =
    (ewma_of h (map snd (r :: rows)), (size (r :: rows)).-1) by case: rows.
  case E: (sample_loop _ _ _ _ _ _ _ _) => [ev err] /=.
  rewrite /samples pmap_cat -/(samples ev). case: all_nan => /=; by rewrite -/(samples (est _ _ _)) est_samples.
  Qed.
  Lemma pmap_take_S (ev : seq (event n T)) k : (forall x, List.In x ev -> exists i y, x = Sample i y) -> samples (take k ev) = take k (samples ev).
  Proof.
  elim: ev k => [|x ev IH] [|k] H //; first by rewrite !take0.
  have [i [y Ex]] := H x (or_introl erefl). rewrite {}Ex.
  change (y :: samples (take k ev) = y :: take k (samples ev)). congr cons. apply: IH => u Hu. apply: H. by right.
  Qed.
  Lemma loop_samples draw b g m i k e x : List.In x (sample_loop T draw b g m i k e).1 -> exists i y, x = Sample i y.
  Proof.
  elim: m i k e => [//|m IH] i k e /=. case: (draw i e) => [y|//]. case: (match g with Some _ => _ | None => _ end) => [r|//].
  have := IH i.+1 k.+1 (step b (k + 1 + 1) e (outer r)). case: (sample_loop _ _ _ _ _ _ _ _) => ev err /= H [<-|/H //]. by exists i, y.
  Qed.
  Theorem gen_prefix draw data h mp N N' g : h <> 0%re -> (mp <= 1)%N -> (0 < size data)%N -> (N <= N')%N ->
    samples (ewma_cov draw data h mp N g).1 = take N (samples (ewma_cov draw data h mp N' g).1).
  Proof.
  move=> Hh Hm Hd HN. have [e [-> ->]] := samples_spec draw N g Hh Hm Hd. have [e' [-> ->]] := samples_spec draw N' g Hh Hm Hd.
  rewrite -(subnKC HN) (sample_prefix _ _ _ N (N' - N)) pmap_take_S //. exact: loop_samples.
  Qed.
  Lemma loop_future draw b (g g' : seq row) m i k c e : (forall j, (j < c)%N -> List.nth_error g j = List.nth_error g' j) ->
    (c < size g)%N -> (c < size g')%N -> (i <= c)%N ->
    take (c - i).+1 (sample_loop T draw b (Some g) m i k e).1 = take (c - i).+1 (sample_loop T draw b (Some g') m i k e).1.
  Proof.
  move=> H Hg Hg'. elim: m i k e => [//|m IH] i k e Hi /=. case: (draw i e) => [x|//].
  case: (ltnP i c) => Hc.
    rewrite H //. case: (List.nth_error g' i) => [r|//]. have := IH i.+1 k.+1 (step b (k + 1 + 1) e (outer r)) Hc.
    case: (sample_loop _ _ _ _ _ _ _ _) => ev err. case: (sample_loop _ _ _ _ _ _ _ _) => ev' err' /=.
    have -> : (c - i = (c - i.+1).+1)%N by rewrite subnS prednK // subn_gt0. by move=> ->.
  have Ei : i = c by apply/eqP; rewrite eqn_leq Hi. rewrite Ei !(nth_errorE none) Hg Hg'.
  case: (sample_loop _ _ _ _ _ _ _ _) => ev err. by case: (sample_loop _ _ _ _ _ _ _ _) => ev' err' /=; rewrite subnn !take0.
  Qed.
  Theorem gen_future draw data h mp N (g g' : seq row) c : h <> 0%re -> (mp <= 1)%N -> (0 < size data)%N ->
    take c g = take c g' -> (c < size g)%N -> (c < size g')%N ->
    take c.+1 (samples (ewma_cov draw data h mp N (Some g)).1) = take c.+1 (samples (ewma_cov draw data h mp N (Some g')).1).
  Proof.
  move=> Hh Hm Hd Hc H1 H2. have [e [-> ->]] := samples_spec draw N (Some g) Hh Hm Hd. have [e' [-> ->]] := samples_spec draw N (Some g') Hh Hm Hd.
  rewrite -!pmap_take_S; try exact: loop_samples. congr samples.
  have := @loop_future draw (beta_of h) g g' N 0 (size data).-1 c (ewma_of h (map snd data)). rewrite subn0. apply=> // j Hj.
  by rewrite !(nth_errorE none) (ltn_trans Hj H1) (ltn_trans Hj H2) -(nth_take none Hj) Hc nth_take.
  Qed.
End Main.
