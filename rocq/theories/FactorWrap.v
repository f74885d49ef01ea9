(** * The theorems on factor_model.py in the setting [factor_setting]. *)
From Coq Require Import Reals Lra ZArith String List Lia.
Set Warnings "-notation-overridden,-ambiguous-paths".
From mathcomp Require Import all_ssreflect all_algebra.
From Verif Require Import RStruct MatR Num Py Ewma Spec Combination SpecComb RealLA SpecCombR FromEwmas SpecFrom ExpUtils SpecExp FactorModel SpecFactor FactorCov FactorLoop FactorItems FactorItem FactorPrefix FactorFull FactorLive FactorFinal FactorEx.
Set Implicit Arguments.
Unset Strict Implicit.
Unset Printing Implicit Defensive.
Import GRing.Theory.
Local Open Scope ring_scope.
Delimit Scope R_scope with re.
Delimit Scope Z_scope with z.

Section Statements.
  Context (n k : nat) (label : option xr * option xr -> string) (pca : seq 'cV[R]_n -> res 'M[R]_(k, n)).
  Context (pairs : seq (option xr * option xr)) (slv : solver (RLA k (size pairs))) (uf memory : nat).
  Notation run times rows := (construct_cmiewma_factor_model label pca slv times rows pairs uf memory).
  Notation setting times rows := (factor_setting k label pairs uf memory times rows).

  Lemma tiling' times rows : setting times rows -> (3 * k + 8 <= memory)%N -> all_early pca rows uf memory (size times) ->
    ((run times rows).2 = None -> map (@f_time n k) (run times rows).1 = drop memory times) /\
    (forall e, (run times rows).2 = Some e -> exists2 c, (memory + c * uf < size times)%N &
       map (@f_time n k) (run times rows).1 = take (c * uf) (drop memory times)).
  Proof. move=> [Hk [Hhl [Hlab [Huf [Hm10 [Hinc Hsz]]]]]] H3 Hea. exact: (tiling slv Hk Hhl Hlab erefl Huf Hm10 Hinc Hsz H3 Hea). Qed.

  Lemma order' times rows : setting times rows -> exists ps,
    map (@f_time n k) (run times rows).1 = [seq nth Z0 times p | p <- ps] /\ sorted ltn ps /\
    (forall p, p \in ps -> (memory <= p < size times)%N) /\
    ((run times rows).2 = None -> forall p, (memory <= p < size times)%N -> p.+1 = size times \/ (uf %| p.+1 - memory)%N -> p \in ps).
  Proof. move=> [Hk [Hhl [Hlab [Huf [Hm10 [Hinc Hsz]]]]]]. exact: (order pca slv Hk Hhl Hlab erefl Huf Hm10 Hinc Hsz). Qed.

  Lemma live' times rows : setting times rows -> (3 * k + 8 <= memory)%N -> pairs <> [::] -> returns_optimal slv ->
    (forall h p, (exists w, optimal p w) -> slv h p <> None) ->
    (forall i, (memory + i * uf < size times)%N -> healthy_block pca times rows pairs uf memory (memory + i * uf)) ->
    (run times rows).2 = None /\ map (@f_time n k) (run times rows).1 = drop memory times.
  Proof.
    move=> [Hk [Hhl [Hlab [Huf [Hm10 [Hinc Hsz]]]]]] H3 Hne Hopt Htot Hh.
    exact: (run_live Hk Hhl Hlab erefl Hne Hopt Htot Huf Hm10 H3 Hinc Hsz Hh).
  Qed.

  Lemma contents' times rows i : setting times rows -> returns_feasible slv -> List.In i (run times rows).1 ->
    exists p, (memory <= p < size times)%N /\ f_time i = nth Z0 times p /\
      pca (train_rows rows memory (block_start uf memory p)) = Ok (f_exposure i) /\
      f_diag i = \col_a idio (f_exposure i) rows p a /\
      spd (f_cov i) /\ exists w F, feasible (size pairs) w /\ expert_factors (f_exposure i) times rows pairs p F /\
        invmx (f_cov i) = avg_factor (size pairs) F w *m (avg_factor (size pairs) F w)^T.
  Proof. move=> [Hk [Hhl [Hlab [Huf [Hm10 [Hinc Hsz]]]]]]. exact: (item_contents Hk Hhl Hlab erefl Huf Hm10 Hinc Hsz). Qed.

  Lemma prefix' times rows times' rows' L : setting times rows -> setting times' rows' -> (3 * k + 8 <= memory)%N ->
    all_early pca rows uf memory (size times) -> all_early pca rows' uf memory (size times') ->
    take L times = take L times' -> take L rows = take L rows' ->
    (L <= memory + size (run times rows).1)%N -> (L <= memory + size (run times' rows').1)%N ->
    (L <= size times)%N -> (L <= size times')%N ->
    take (L - memory) (run times rows).1 = take (L - memory) (run times' rows').1.
  Proof.
    move=> [Hk [Hhl [Hlab [Huf [Hm10 [Hinc Hsz]]]]]] [_ [_ [_ [_ [_ [Hinc' Hsz']]]]]] H3 He He' Et Er H1 H2 HL HL'.
    have := prefix Hk Hhl Hlab erefl Huf Hm10 H3 Hinc' Hsz' He' HL' H2.
    have := prefix Hk Hhl Hlab erefl Huf Hm10 H3 Hinc Hsz He HL H1. rewrite Et Er => -> [->]. by [].
  Qed.
  Lemma take' times rows L : setting times rows -> (3 * k + 8 <= memory)%N -> all_early pca rows uf memory (size times) ->
    (L <= size times)%N -> (L <= memory + size (run times rows).1)%N ->
    run (take L times) (take L rows) = (take (L - memory) (run times rows).1, None).
  Proof. move=> [Hk [Hhl [Hlab [Huf [Hm10 [Hinc Hsz]]]]]] H3 He HL H1. exact: (prefix Hk Hhl Hlab erefl Huf Hm10 H3 Hinc Hsz He HL H1). Qed.

  Lemma full' times rows i : setting times rows -> returns_feasible slv -> List.In i (run times rows).1 ->
    exists p, (memory <= p < size times)%N /\ f_time i = nth Z0 times p /\
      full_cov i = (f_exposure i)^T *m f_cov i *m f_exposure i + diag_mx (\row_a idio (f_exposure i) rows p a) /\
      (forall a, 0 <= idio (f_exposure i) rows p a)%re /\ psd (full_cov i) /\
      (spd (full_cov i) <-> forall x : 'cV[R]_n, x <> 0 -> f_exposure i *m x <> 0 \/
         exists a s, (s <= p)%N /\ residual (f_exposure i) rows s a ord0 <> 0 /\ x a ord0 <> 0).
  Proof. move=> [Hk [Hhl [Hlab [Huf [Hm10 [Hinc Hsz]]]]]]. exact: (full_of_run Huf Hinc Hsz Hm10 Hk Hhl Hlab erefl). Qed.
  Lemma dict' times rows : setting times rows ->
    from_factor_to_full_covariance (run times rows).1 = [seq (f_time i, full_cov i) | i <- (run times rows).1].
  Proof. move=> [Hk [Hhl [Hlab [Huf [Hm10 [Hinc Hsz]]]]]]. exact: (dict_of_run pca slv Huf Hinc Hsz Hm10 Hk Hhl Hlab erefl). Qed.

  Lemma failure' times rows e : setting times rows -> (run times rows).2 = Some e ->
    exists c, (memory + c * uf < size times)%N /\ fm_block label pca slv times rows pairs uf memory (memory + c * uf) = Raise e /\
      forall i, List.In i (run times rows).1 -> exists p, (memory <= p < memory + c * uf)%N /\ f_time i = nth Z0 times p.
  Proof. move=> [Hk [Hhl [Hlab [Huf [Hm10 [Hinc Hsz]]]]]]. exact: (failure_at Huf Hinc Hsz Hm10 Hk Hhl Hlab erefl). Qed.
  Lemma still' times rows E : setting times rows -> (memory < size times)%N -> pca (train_rows rows memory memory) = Ok E ->
    (forall s, (s < minn (memory + uf) (size times))%N -> factor_return E rows s = 0) -> run times rows = ([::], Some IndexError).
  Proof. move=> [Hk [Hhl [Hlab [Huf [Hm10 [Hinc Hsz]]]]]]. exact: (factors_still label slv Huf Hinc Hsz Hm10 Hk Hhl). Qed.
  Lemma unsolved' times rows : setting times rows -> (memory < size times)%N -> (forall h p, slv h p = None) ->
    exists e, run times rows = ([::], Some e).
  Proof. move=> [Hk [Hhl [Hlab [Huf [Hm10 [Hinc Hsz]]]]]]. exact: (never_solved pca Huf Hinc Hsz Hm10 Hk Hhl Hlab erefl). Qed.
  Lemma pca_fails' times rows e : setting times rows -> (memory < size times)%N -> pca (train_rows rows memory memory) = Raise e ->
    run times rows = ([::], Some e).
  Proof. move=> [Hk [Hhl [Hlab [Huf [Hm10 [Hinc Hsz]]]]]]. exact: (pca_fails label slv pairs Huf Hinc Hsz Hm10). Qed.
  Lemma short' times rows : (0 < k)%N -> positive_halflives pairs -> List.NoDup (map label pairs) -> (0 < uf)%N -> increasing times ->
    size rows = size times -> (memory < 10)%N -> (uf + 10 <= size times)%N -> (forall l, exists E, pca l = Ok E) ->
    run times rows = ([::], Some IndexError).
  Proof. move=> Hk Hhl Hlab Huf Hinc Hsz. exact: (short_memory slv Huf Hinc Hsz Hk Hhl Hlab erefl). Qed.
End Statements.

Lemma short_run' n k K label (pca : seq 'cV[R]_n -> res 'M[R]_(k, n)) (slv : solver (RLA k K)) pairs uf memory times rows :
  (0 < uf)%N -> (size times <= memory)%N -> construct_cmiewma_factor_model label pca slv times rows pairs uf memory = ([::], None).
Proof. exact: run_short. Qed.

Notation fe_run N m := (construct_cmiewma_factor_model fe_label fe_pca fe_slv (fe_times N) (fe_rows N) fe_pairs 2 m).
Lemma fe_setting N : factor_setting 1 fe_label fe_pairs 2 11 (fe_times N) (fe_rows N).
Proof. split=> //. split; first exact: fe_hl. split; first exact: fe_lab. do 2!split=> //. split; [exact: fe_inc|exact: fe_size]. Qed.
Lemma fe_early N : all_early fe_pca (fe_rows N) 2 11 (size (fe_times N)).
Proof.
  move=> i E t Ht [<-]. rewrite size_map size_iota in Ht. exists 0%N; first by rewrite /t; lia.
  rewrite fe_return; last by rewrite /t in Ht; lia. move=> /colP /(_ ord0). rewrite !mxE. exact: R1_neq_R0.
Qed.
Lemma fe_case : factor_setting 1 fe_label fe_pairs 2 11 (fe_times 14) (fe_rows 14) /\
  all_early fe_pca (fe_rows 14) 2 11 (size (fe_times 14)) /\ returns_optimal fe_slv /\ returns_feasible fe_slv /\
  (forall i, (11 + i * 2 < 14)%N -> healthy_block fe_pca (fe_times 14) (fe_rows 14) fe_pairs 2 11 (11 + i * 2)) /\
  let g := fe_run 14 11 in g.2 = None /\ map (@f_time 2 1) g.1 = [:: 11; 12; 13]%z.
Proof.
  split; first exact: fe_setting. split; first exact: fe_early. split; first exact: fe_optimal. split; first exact: fe_feasible.
  split; last exact: fe_live. move=> i Hi. apply: fe_healthy. by rewrite leq_addr.
Qed.
Lemma fe_size3 : size (fe_run 14 11).1 = 3%N.
Proof. have [_ H] := fe_live. by rewrite -(size_map (@f_time 2 1)) H. Qed.
Lemma fe_prefix : fe_run 12 11 = (take 1 (fe_run 14 11).1, None) /\ size (fe_run 14 11).1 = 3%N.
Proof.
  split; last exact: fe_size3.
  have := @take' 2 1 fe_label fe_pca fe_pairs fe_slv 2 11 (fe_times 14) (fe_rows 14) 12 (fe_setting 14) isT (@fe_early 14) isT.
  rewrite fe_size3 => H. exact: H.
Qed.
Lemma fe_full : size (from_factor_to_full_covariance (fe_run 14 11).1) = 3%N /\ forall i, List.In i (fe_run 14 11).1 -> spd (full_cov i).
Proof.
  rewrite (@dict' 2 1 fe_label fe_pca fe_pairs fe_slv 2 11 (fe_times 14) (fe_rows 14) (fe_setting 14)) size_map fe_size3. split=> // i Hi.
  have [p [Hp [_ [HE _]]]] := @contents' 2 1 fe_label fe_pca fe_pairs fe_slv 2 11 (fe_times 14) (fe_rows 14) i (fe_setting 14) fe_feasible Hi.
  have [q [Hq [_ [_ [_ [_ [_ H]]]]]]] := @full' 2 1 fe_label fe_pca fe_pairs fe_slv 2 11 (fe_times 14) (fe_rows 14) i (fe_setting 14) fe_feasible Hi.
  apply: H => x Hx. move: HE => [<-]. case: (Req_EM_T (x ord_max ord0) 0) => [H1|H1].
  - left => H2. apply: Hx. apply/colP => a. rewrite mxE. move: H2 => /colP /(_ ord0). rewrite !mxE !big_ord_recl big_ord0 !mxE /= mul1r mul0r !addr0 => H0.
    case: a => -[|[|//]] Ha; [rewrite -[RHS]H0|rewrite -[RHS]H1]; congr (x _ ord0); exact: val_inj.
  - right. exists ord_max, 0%N. split=> //. split=> //. rewrite fe_residual //=. exact: R1_neq_R0.
Qed.
Lemma fe_failures :
  fe_run 14 9 = ([::], Some IndexError) /\
  construct_cmiewma_factor_model fe_label fe_pca fe_slv (fe_times 14) (nseq 14 0) fe_pairs 2 11 = ([::], Some IndexError) /\
  exists e, construct_cmiewma_factor_model (K := 1) fe_label fe_pca (fun _ _ => None) (fe_times 14) (fe_rows 14) fe_pairs 2 11 = ([::], Some e).
Proof.
  split; [|split].
  - apply: (@short' 2 1 fe_label fe_pca fe_pairs fe_slv 2 9 (fe_times 14) (fe_rows 14) isT fe_hl fe_lab isT (fe_inc 14) (fe_size 14) isT isT) => l. by exists fe_E.
  - apply: (@still' 2 1 fe_label fe_pca fe_pairs fe_slv 2 11 (fe_times 14) (nseq 14 0) fe_E) => //; first by have [? [? [? [? [? [? _]]]]]] := fe_setting 14.
    move=> s _. rewrite /factor_return nth_nseq. case: ifP => _; by rewrite mulmx0.
  - exact: (@unsolved' 2 1 fe_label fe_pca fe_pairs (fun _ _ => None) 2 11 (fe_times 14) (fe_rows 14) (fe_setting 14)).
Qed.
Lemma fe_scores : exists a b, factor_log_likelihood (fe_times 14) (fe_rows 14) (fe_run 14 11).1 = Ok [:: (11%z, Some a); (12%z, Some b); (13%z, None)].
Proof.
  have [_ Ht] := fe_live. have [_ Hf] := fe_full. move: Ht Hf. case: (fe_run 14 11).1 => [//|i1 [//|i2 [//|i3 [|//]]]] [H1 H2 H3] Hf.
  have := @ll_scores 2 1 (fe_times 14) (fe_rows 14) (fe_inc 14) (fe_size 14) [:: (11%N, i1); (12%N, i2); (13%N, i3)].
  move=> H. do 2!eexists. apply: H => q [<-|[<-|[<-|[]]]]; (split=> //; split=> //; apply: Hf; rewrite /=; tauto).
Qed.
