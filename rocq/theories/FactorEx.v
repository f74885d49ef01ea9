(** * Concrete instances for the theorems on factor_model.py: two assets, one factor, one expert, constant returns. *)
From Coq Require Import Classical_Prop Reals Lra ZArith String List Lia.
Set Warnings "-notation-overridden,-ambiguous-paths".
From mathcomp Require Import all_ssreflect all_algebra.
From Verif Require Import RStruct MatR Num Py ListFacts XRFacts Ewma EwmaPrefix Spec SpecEwma EwmaReal EwmaProps3 EwmaClosed EwmaFirst PropEwma Combination SpecComb RealLA SpecCombR FromEwmas SpecFrom FromEwmasProps ExpUtils BacktestProps RetEwm FactorModel SpecFactor FactorCov FactorCov2 FactorMain FactorLoop FactorItems FactorItem FactorPrefix FactorFull FactorLive FactorFinal.
Set Implicit Arguments.
Unset Strict Implicit.
Unset Printing Implicit Defensive.
Import GRing.Theory.
Local Open Scope ring_scope.
Delimit Scope R_scope with re.
Delimit Scope Z_scope with z.

Definition fe_E : 'M[R]_(1, 2) := \matrix_(i, j) (if nat_of_ord j == 0%N then 1 else 0).
Definition fe_times N : seq Z := [seq Z.of_nat i | i <- iota 0 N].
Definition fe_rows N : seq 'cV[R]_2 := nseq N (const_mx 1).
Definition fe_pca : seq 'cV[R]_2 -> res 'M[R]_(1, 2) := fun _ => Ok fe_E.
Definition fe_pairs : seq (option xr * option xr) := [:: (Some (Fin 2), Some (Fin 3))].
Definition fe_label : option xr * option xr -> string := fun _ => EmptyString.
Definition fe_slv : solver (RLA 1 1) := fun _ _ => Some [:: 1%R].

Lemma fe_times_nth N i : (i < N)%N -> nth Z0 (fe_times N) i = Z.of_nat i.
Proof. move=> H. by rewrite (nth_map 0%N) ?size_iota // nth_iota. Qed.
Lemma fe_size N : size (fe_rows N) = size (fe_times N).
Proof. by rewrite size_nseq size_map size_iota. Qed.
Lemma fe_inc N : increasing (fe_times N).
Proof.
  rewrite /fe_times. elim: N 0%N => [|N IH] i //=. case: N IH => [//|N] IH. split; last exact: (IH i.+1). lia.
Qed.
Lemma fe_hl : positive_halflives fe_pairs.
Proof. move=> p [<-|[]]. exists 2%re, 3%re. split=> //. lra. Qed.
Lemma fe_lab : List.NoDup (map fe_label fe_pairs).
Proof. constructor=> //. constructor. Qed.
Lemma fe_optimal : returns_optimal fe_slv.
Proof.
  move=> h p w [<-]. have Hf : feasible 1 [:: 1%R].
  { split=> //. split; last by rewrite big_ord1. case=> // _ /=. exact: Rle_0_1. }
  split=> // w' [Hs [_ Hsum]]. have -> : w' = [:: 1%R]; last exact: Rle_refl.
  case: w' Hs Hsum => [//|a [|]] //= _. by rewrite big_ord1 /= => ->.
Qed.
Lemma fe_feasible : returns_feasible fe_slv.
Proof. move=> h p w H. by case: (fe_optimal H). Qed.
Lemma fe_total h p : (exists w, optimal p w) -> fe_slv h p <> None.
Proof. by []. Qed.

Lemma fe_fac : fe_E *m const_mx 1 = const_mx 1 :> 'cV[R]_1.
Proof. apply/colP => i. rewrite !mxE !big_ord_recl big_ord0 !mxE /=. by rewrite mulr1 mul0r !addr0. Qed.
Lemma fe_return N s : (s < N)%N -> factor_return fe_E (fe_rows N) s = const_mx 1.
Proof. move=> H. by rewrite /factor_return nth_nseq H fe_fac. Qed.
Lemma fe_residual N s i : (s < N)%N -> residual fe_E (fe_rows N) s i ord0 = (if nat_of_ord i == 0%N then 0 else 1).
Proof.
  move=> H. rewrite /residual fe_return // nth_nseq H !mxE big_ord1 !mxE mulr1. case: ifP => _; [exact: subrr|exact: subr0].
Qed.

Lemma fe_decay h : (0 < h)%re -> (0 < decay h < 1)%re.
Proof.
  move=> H. rewrite /decay. split; first exact: exp_pos.
  rewrite -[X in (_ < X)%re](Rpower_O 2); last lra. apply: Rpower_lt; first lra. have := Rinv_0_lt_compat _ H. lra.
Qed.

(** The covariance is 1 in every row. *)
Lemma fe_issued N q reg S : (q < N)%N -> expert_cov fe_E (fe_times N) (fe_rows N) q (Some (Fin 2), Some (Fin 3)) reg S ->
  exists2 c, (0 < c)%re & S = const_mx c.
Proof.
  move=> Hq [outs [o [Ho [Hin [Ht Hs]]]]].
  set fs := [seq fe_E *m r | r <- take q.+1 (fe_rows N)] in Ho.
  have Hfs : fs = nseq q.+1 (const_mx 1).
  { rewrite /fs take_nseq //. by rewrite map_nseq fe_fac. }
  have Htm : size (take q.+1 (fe_times N)) = q.+1 by rewrite size_takel // size_map size_iota.
  have Hsz : size fs = size (take q.+1 (fe_times N)) by rewrite Hfs size_nseq Htm.
  have HS : settings (pair_params (N := XR) 1 (2 * 1) None false (Some (Fin 2), Some (Fin 3))) 2 3 2 3 None.
  { split; [split; [by []|lra]|]. split; [split; [by []|lra]|]. split; [left; auto|]. split; [left; auto|]. by left. }
  have Hv := xframe_valid (increasing_take q.+1 (fe_inc N)) Hsz (isT : (0 < 1)%N).
  have Hx b := xframe_returns Hsz b.
  have Hf1 j s : (j = 0)%N -> (s <= q)%N -> fx fs j s = 1%re.
  { move=> -> H. rewrite /fx insubT Hfs nth_nseq ltnS H mxE. by []. }
  have Hcl := @cols_len 1 (take q.+1 (fe_times N)) fs.
  have Hidx : findex (xframe (take q.+1 (fe_times N)) fs) = take q.+1 (fe_times N) by [].
  have Htq : itime o = List.nth q (take q.+1 (fe_times N)) Z0.
  { rewrite Ht nthE nth_take //. }
  have := @items_closed _ _ _ 2 3 2 3 None HS Hv (Hx _) outs o q.
  rewrite Hcl Hidx. cbv zeta.
  change (List.length (take q.+1 (fe_times N))) with (size (take q.+1 (fe_times N))).
  rewrite Htm [min_periods_vola _]/= [use_mean _]/= [first_pos 1]/= /centred => H.
  have Hmv : exists j s, (j < 1)%coq_nat /\ (s <= 0)%coq_nat /\ fx fs j s <> 0%re.
  { exists 0%N, 0%N. split; [lia|]. split; [lia|]. by rewrite Hf1. }
  have Hqq : (q < q.+1)%coq_nat by lia.
  have H01 : (0 < 1)%coq_nat by lia.
  have [_ [_ H3]] := H Hmv Ho Hin Hqq Htq 0%N H01. move: (H3 0%N H01) => {H3 H}.
  have Hw s : (s <= q)%N -> sqrt (winsor_var 2 1 None (fx fs 0) s) = 1%re.
  { move=> Hs'. rewrite winsor_none; last lra.
    rewrite (@EwmaClosed.ewavg_ext _ _ (fun _ => 1%re)).
    - rewrite ewavg_const; last by apply: fe_decay; lra. exact: sqrt_1.
    - move=> u /leP Hu. rewrite Hf1 //; [lra|exact: (leq_trans Hu)]. }
  have Hz s : (s <= q)%N -> standardised None (fx fs 0 (0 + s)%coq_nat) (sqrt (winsor_var 2 1 None (fx fs 0) (0 + s)%coq_nat)) = 1%re.
  { move=> Hs'. rewrite /standardised Hw // Hf1 //=. case: Req_EM_T => [H|_] /=; last lra. have := R1_neq_R0. by []. }
  have Hc : ewavg (decay 3) (fun s => (standardised None (fx fs 0 (0 + s)%coq_nat) (sqrt (winsor_var 2 1 None (fx fs 0) (0 + s)%coq_nat)) *
    standardised None (fx fs 0 (0 + s)%coq_nat) (sqrt (winsor_var 2 1 None (fx fs 0) (0 + s)%coq_nat)))%re) (q - 0)%coq_nat = 1%re.
  { rewrite (@EwmaClosed.ewavg_ext _ _ (fun _ => 1%re)).
    - rewrite ewavg_const //. by apply: fe_decay; lra.
    - move=> s Hs'. rewrite Hz; [lra|lia]. }
  rewrite Hc Hw // => -[H _]. have {H} := H R1_neq_R0 R1_neq_R0.
  have -> : (1 * 1 * (1 / sqrt (1 * 1)))%re = 1%re by rewrite Rmult_1_l sqrt_1; field.
  rewrite /cov_at.
  have [_ [_ [Hi1 [Hi2 [Hf2 Hf3]]]]] := @EwmaProps5.out_shape XR _ _ outs o erefl Hv Ho Hin.
  have {Hs} -> := Hs. move: Hf2 Hf3. rewrite Hi1 Hi2 /to_matrix.
  case: (fvals (icov o)) => [//|r [|//]] _ Hr. have {Hr} := List.Forall_inv Hr. case: r => [//|x [|//]] _ /= ->.
  exists (if reg then 1 + / 20 else 1)%re; first by case: reg; lra.
  case: reg; apply/matrixP => i j; rewrite !mxE !ord1 ?eqxx ?mulr1n /=; [by rewrite mulr1|by []].
Qed.

Lemma fe_spd (c : R) : (0 < c)%re -> spd (const_mx c : 'M[R]_1).
Proof.
  move=> Hc. split; first by apply/matrixP => i j; rewrite !mxE.
  move=> x /eqP Hx. rewrite /qf !mxE big_ord1 !mxE big_ord1 !mxE. have Hn : x ord0 ord0 <> 0.
  { move=> H. apply: Hx. apply/colP => i. by rewrite ord1 mxE. }
  have -> : x ord0 ord0 * c * x ord0 ord0 = (c * (x ord0 ord0 * x ord0 ord0))%re by rewrite mulrAC [LHS]mulrC.
  apply: Rmult_lt_0_compat => //. exact: Rlt_0_sqr.
Qed.

Lemma fe_healthy t : (11 <= t < 14)%N -> healthy_block fe_pca (fe_times 14) (fe_rows 14) fe_pairs 2 11 t.
Proof.
  move=> Ht. have Hbe : (block_end 2 (size (fe_times 14)) t < 14)%N by rewrite /block_end /= gtn_min; lia.
  exists fe_E. split=> //. split.
  { exists 0%N; first by lia. rewrite fe_return // => /colP /(_ ord0). rewrite !mxE. exact: R1_neq_R0. }
  split.
  - move=> q [|//] S Hq _ HS. have [|c Hc ->] := fe_issued _ HS; [lia|exact: fe_spd].
  - move=> p Hp v [[|//] _ Hv]. exists p; first by lia. move=> F HF. rewrite big_ord1 fe_return; last by lia.
    have [S [_ [_ [_ [Hd _]]]]] := HF 0%N isT. move=> /colP /(_ ord0). rewrite !mxE big_ord1 !mxE mulr1 => /eqP.
    rewrite mulf_eq0 => /orP [] /eqP; first by []. have := Hd ord0. move=> H E. move: H. rewrite E. exact: Rlt_irrefl.
Qed.
Lemma fe_live : (construct_cmiewma_factor_model fe_label fe_pca fe_slv (fe_times 14) (fe_rows 14) fe_pairs 2 11).2 = None /\
  map (@f_time 2 1) (construct_cmiewma_factor_model fe_label fe_pca fe_slv (fe_times 14) (fe_rows 14) fe_pairs 2 11).1 = [:: 11; 12; 13]%z.
Proof.
  have H := @run_live 2 1 1 fe_label fe_pca fe_slv fe_pairs 2 11 isT fe_hl fe_lab erefl _ fe_optimal fe_total isT isT isT
    (fe_times 14) (fe_rows 14) (fe_inc 14) (fe_size 14).
  apply: H => // i t Ht. apply: fe_healthy. rewrite /t in Ht *. rewrite leq_addr. exact: Ht.
Qed.
