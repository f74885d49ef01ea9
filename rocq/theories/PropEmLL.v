(** * C102: em_low_rank_log_likelihood scores every covariance through a better factor model. *)
From Coq Require Import Reals ZArith String List Lia Lra.
Set Warnings "-notation-overridden,-ambiguous-paths".
From mathcomp Require Import all_ssreflect all_algebra.
From Verif Require Import RStruct MatR Num Py Combination Regularization SpecReg RegProps RegMain EmFacts EmProps EmOpt EmMain ExpUtils SpecExp ExpLL ExpMain EmLL EmLLProps PropReg.
Set Implicit Arguments.
Unset Strict Implicit.
Unset Printing Implicit Defensive.
Import GRing.Theory.
Local Open Scope ring_scope.
Delimit Scope R_scope with re.

(** [items]: for each covariance the position of its time stamp in the frame of returns, and the covariance.  The result has,
    for every covariance that is not at the last row, the log-density of the next row under N(0, V); V is a factor model
    with [k] factors and positive idiosyncratic variances that fits the covariance at least as well (in log-likelihood) as
    the regularised covariance it starts from. *)
Theorem C102_scores n k (eigh : eigh_t n) (ts : seq Z) (xs : seq 'cV[R]_n) (items : seq (nat * sframe n)) fs :
  eigh_ok eigh -> List.NoDup ts -> size ts = size xs -> (0 < n)%N -> xs <> [::] -> List.NoDup (map fst items) ->
  (forall q, List.In q items -> (q.1 < size ts)%N /\ exists S, s_val q.2 = Some S /\ spd S) ->
  regularize_covariance eigh [seq (nth Z0 ts q.1, q.2) | q <- items] (Z.of_nat k) true = (fs, None) ->
  (forall t ci F ci' d, List.In (t, Factored ci F ci' d) fs -> pos_vec d) ->
  exists Vs : seq 'M[R]_n, size Vs = size items /\
    em_low_rank_log_likelihood k eigh (zip ts (map (@finite_row n) xs)) [seq (nth Z0 ts q.1, q.2) | q <- items] =
      Ok (scores ts xs (fun _ => 0) (zip (map fst items) Vs)) /\
    forall j t fr S V, List.nth_error [seq (nth Z0 ts q.1, q.2) | q <- items] j = Some (t, fr) -> s_val fr = Some S -> List.nth_error Vs j = Some V ->
      (exists (F : 'M[R]_(n, k)) d, V = factor_model F d /\ pos_vec d) /\
      forall ds ed ci ci' M, regularize_covariance eigh [seq (nth Z0 ts q.1, q.2) | q <- items] (Z.of_nat k) false = (ds, ed) ->
        List.nth_error ds j = Some (t, Dense ci ci' M) -> (loglik S M <= loglik S V)%re.
Proof. exact (@em_ll_scores n k eigh ts xs items fs). Qed.
Print Assumptions C102_scores.

(** The exceptions: those of regularize_covariance come first, whatever the returns are. *)
Theorem C102_raises n k (eigh : eigh_t n) returns Sigmas e :
  (regularize_covariance eigh Sigmas (Z.of_nat k) true).2 = Some e -> em_low_rank_log_likelihood k eigh returns Sigmas = Raise e.
Proof. exact (@em_ll_raises n k eigh returns Sigmas e). Qed.
Print Assumptions C102_raises.

(** ** A case that meets the hypotheses: two rows of returns, the covariance [[4, 2], [2, 9]] at the first, one factor. *)
Definition exl_items : seq (nat * sframe 2) := [:: (0%N, ex_fr)].
Definition exl_ts : seq Z := [:: Z0; Zpos xH].
Definition exl_xs : seq 'cV[R]_2 := [:: 0; \col_i 1].
Example exl_spd : spd ex_S.
Proof.
  split; first exact: ex_sym. move=> x Hx.
  have E : qf ex_S x = (4 * (x ord0 ord0 * x ord0 ord0) + 2 * 2 * (x ord0 ord0 * x (lift ord0 ord0) ord0) + 9 * (x (lift ord0 ord0) ord0 * x (lift ord0 ord0) ord0))%re.
    rewrite /qf mxE !big_ord_recl big_ord0 !mxE !big_ord_recl !big_ord0 !mxE /=.
    move: (x ord0 0) (x (lift ord0 ord0) 0) => a b. toR. eqR. ring.
  have Hne : (x ord0 ord0 <> 0 \/ x (lift ord0 ord0) ord0 <> 0)%re.
    case: (Req_dec (x ord0 ord0) 0%re) => [H0|H0]; last by left. case: (Req_dec (x (lift ord0 ord0) ord0) 0%re) => [H1|H1]; last by right.
    exfalso. move/eqP: Hx; apply. apply/colP => i. rewrite [RHS]mxE. case: (unliftP ord0 i) => [j ->|->]; last exact: H0. by rewrite (ord1 j); exact: H1.
  rewrite E. move: (x ord0 ord0) (x (lift ord0 ord0) ord0) Hne => a b Hne.
  have := Rle_0_sqr (2 * a + b)%re. have := Rle_0_sqr b. have := Rle_0_sqr a. rewrite /Rsqr => A B C.
  case: (Req_dec b 0%re) => [Hb|Hb]; last by have := Rsqr_pos_lt _ Hb; rewrite /Rsqr; nra.
  case: Hne => // Ha. have := Rsqr_pos_lt _ Ha. rewrite /Rsqr Hb. nra.
Qed.
Example C102_met : exists fs, regularize_covariance (@eigh_exact 2) [seq (nth Z0 exl_ts q.1, q.2) | q <- exl_items] (Z.of_nat 1) true = (fs, None) /\
  fs <> nil /\ forall t ci F ci' d, List.In (t, Factored ci F ci' d) fs -> pos_vec d.
Proof.
  case E : (regularize_covariance _ _ _ _) => [fs ex].
  have Hpos : forall i, (0 < ex_S i i)%re by move=> i; rewrite mxE eqxx; case: ifP => _; lra.
  have := main_outcome (@eigh_exact_total 2) _ E. case: ex E => [e|] E.
    case; first by move=> t fr S [[_ <-]|[]] [<-]; exact: ex_sym.
    move=> _ [d1 [t [fr [d2 [E1 [_ [[]|Hb]]]]]]]; first by simpl; lia.
    case: Hb. exists ex_S. split=> //. by case: d1 E1 => [|? [|? ?]] //= [_ <-].
  case; first by move=> t fr S [[_ <-]|[]] [<-]; exact: ex_sym.
  case: fs E => [//|[t it] [|//]] E [Et] _. exists [:: (t, it)]. split=> //. split=> // t' ci F ci' d [[Et' Eit]|[]]. subst it. subst t. clear t' Et'.
  have Ok := @eigh_exact_ok 2.
  case Ed : (regularize_covariance (@eigh_exact 2) [seq (nth Z0 exl_ts q.1, q.2) | q <- exl_items] (Z.of_nat 1) false) => [ds ed].
  have [Ee [El _]] := main_formats Ed E. case: ds El Ed => [//|[t it] [|//]] _ Ed. subst ed.
  have [f [lam [EF [Hf [Hl [_ [Hdir [Hload _]]]]]]]] := main_principal Ok E (j := 0) erefl (fr := ex_fr) erefl erefl ex_psd.
  have [f' [d' [Eit [Hf' Hd']]]] := main_lowrank Ok E (j := 0) erefl (fr := ex_fr) erefl erefl ex_psd.
  have [fr [S [M [H1 [H2 [H3 [H4 _]]]]]]] := main_diag Ed (j := 0) erefl. case: H1 => Et ?. subst t fr. case: H2 => ?. subst S.
  have [L [_ [HL [_ Ei]]]] := item_known E (j := 0) erefl (fr := ex_fr) erefl erefl.
  have [L' [_ [HL' [_ Ei']]]] := item_known Ed (j := 0) erefl (fr := ex_fr) erefl erefl.
  rewrite HL in HL'. case: HL' => ?. subst L'. case: Ei => _ EF2 _ Ed2. move: H3; rewrite Ei' => -[EM]. rewrite EF in EF2.
  have [f2 [Ef2 [_ [_ [_ [Hd2 [Edn _]]]]]]] := struct_eq Ok ex_psd Hpos HL.
  have ? : f2 = f by apply: (inj_map (f := Some)); [move=> ? ? []|rewrite EF2 -Ef2].
  subst f2. rewrite -Ed2 in Edn Hd2. rewrite EM in Edn. rewrite Edn in H4. clear - Hf H4 Hdir Hload Hd2.
  case: f Hf H4 Hdir Hload => [//|x [|//]] _ H4 /(_ 0%N isT) Hdir /(_ 0%N 0%N isT isT) /= Hload.
  have H0 := H4 ord0. have H1 := H4 (lift ord0 ord0).
  move: H0 H1 Hload. rewrite !fm_entry eqxx !mulr1n /of_cols !big_ord_recl !big_ord0 !mxE /load /=.
  move=> H0 H1 Hload.
  have D0 := congr1 (fun v : 'cV[R]_2 => v ord0 ord0) Hdir. have D1 := congr1 (fun v : 'cV[R]_2 => v (lift ord0 ord0) ord0) Hdir.
  move: D0 D1. rewrite /direction /load !mxE !big_ord_recl !big_ord0 !mxE /=.
  have A := Hd2 ord0. have B := Hd2 (lift ord0 ord0).
  have s4 : sqrt 4 = 2%re by rewrite (_ : 4 = 2 * 2)%re; [apply: sqrt_square|]; lra.
  have s9 : sqrt 9 = 3%re by rewrite (_ : 9 = 3 * 3)%re; [apply: sqrt_square|]; lra.
  have s44 : sqrt (4 * 4) = 4%re by apply: sqrt_square; lra. have s99 : sqrt (9 * 9) = 9%re by apply: sqrt_square; lra.
  have s49 : sqrt (4 * 9) = 6%re by rewrite (_ : 4 * 9 = 6 * 6)%re; [apply: sqrt_square|]; lra.
  have s94 : sqrt (9 * 4) = 6%re by rewrite (_ : 9 * 4 = 6 * 6)%re; [apply: sqrt_square|]; lra.
  rewrite s4 s9 s44 s99 s49 s94 -Hload. move: H0 H1 A B. toR.
  have key : forall p q : R, (p * p = 1 -> p + q * / 3 = (p * p + q * q) * p -> p * / 3 + q = (p * p + q * q) * q -> False)%re.
    move=> p q Hp E1 E2. rewrite Hp in E1 E2. have E3 : (p * / 3 = q * q * q)%re by lra. have E4 : (q * / 3 = q * q * p)%re by lra.
    have Hq : q <> 0%re.
      move=> Hq. rewrite Hq in E3. have Hp0 : p = 0%re by lra. rewrite Hp0 in Hp. lra.
    have E5 : (q * p = / 3)%re by apply: (Rmult_eq_reg_l q) => //; lra.
    have E6 : (q * q = / 9)%re by have -> : (q * q = (q * p) * (q * p))%re; [have -> : ((q * p) * (q * p) = q * q * (p * p))%re by ring|]; rewrite ?Hp ?E5; lra.
    rewrite E6 in E3. have E7 : (q = 3 * p)%re by lra. rewrite E7 in E5. lra.
  move: (x ord0 0%R) (x (lift ord0 ord0) 0%R) => u v.
  have -> : (u * u / 4 = u / 2 * (u / 2))%re by field. have -> : (v * v / 9 = v / 3 * (v / 3))%re by field.
  have -> : (u * u = 4 * (u / 2 * (u / 2)))%re by field. have -> : (v * v = 9 * (v / 3 * (v / 3)))%re by field.
  move: (u / 2)%re (v / 3)%re => p q H0 H1 A B D0 D1 i.
  case: (unliftP ord0 i) => [j ->|->]; rewrite ?(ord1 j).
  - case: B => // B. exfalso. rewrite -B in H1. apply: (key q p); lra.
  - case: A => // A. exfalso. rewrite -A in H0. apply: (key p q); lra.
Qed.
