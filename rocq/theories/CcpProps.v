(** * Proofs about ccp_regularize.py. *)
From Coq Require Import Reals Lra ZArith.
Set Warnings "-notation-overridden,-ambiguous-paths".
From mathcomp Require Import all_ssreflect all_algebra.
From Verif Require Import RStruct MatR Py Num Spectral Combination Regularization SpecReg RegProps RegOpt EmFacts EmProps Ccp SpecCcp.
Set Implicit Arguments.
Unset Strict Implicit.
Unset Printing Implicit Defensive.
Import GRing.Theory.
Local Open Scope ring_scope.
Delimit Scope R_scope with re.

Section Ccp.
  Context (n k : nat).
  Notation vec := 'cV[R]_n.
  Notation fac := 'M[R]_(n, k).
  Implicit Types (e d : vec) (F G : fac) (Sg : 'M[R]_n).


  Definition Cm e G : 'M[R]_k := 1%:M - G^T *m Di e *m G.

  Lemma rt_Di e (F : fac) : rows_times (\col_i rcp (e i 0)) F = Di e *m F.
  Proof. apply/matrixP => i a. by rewrite mul_diag_mx !mxE. Qed.
  Lemma inverse_ok e : pos_vec e -> inverse_of e = Ok (\col_i rcp (e i 0)).
  Proof. move=> He. by rewrite /inverse_of pos_nz. Qed.
  Lemma pos_rcp e : pos_vec e -> pos_vec (\col_i rcp (e i 0)).
  Proof. move=> He i. rewrite mxE /rcp. apply: Rdiv_lt_0_compat; [lra|exact: He]. Qed.
  Lemma DDi e : pos_vec e -> diag_mx e^T *m Di e = 1%:M.
  Proof. move=> He. rewrite mulmx_diag -diag_const_mx. congr diag_mx. apply/rowP => i. rewrite !mxE. exact: rcp_l. Qed.
  Lemma K_sym e G : sym (precision e G).
  Proof. by rewrite /sym /precision trB tr_diag_mx trmx_mul trmxK. Qed.
  Lemma C_sym e G : sym (Cm e G).
  Proof. by rewrite /sym /Cm trB trmx1 !trmx_mul trmxK Di_sym mulmxA. Qed.
  (** K positive definite makes e positive and C positive definite. *)
  Lemma qf_dlt m (M : 'M[R]_m) i : qf M (delta_mx i 0) = M i i.
  Proof.
    rewrite /qf. have -> : (delta_mx i 0 : 'cV[R]_m)^T *m M = row i M by rewrite trmx_delta rowE.
    rewrite -colE. by rewrite !mxE.
  Qed.
  Lemma K_pos e G : spd (precision e G) -> pos_vec e.
  Proof.
    move=> [_ H] i. have /H : (delta_mx i 0 : vec) != 0.
      apply/eqP => /matrixP /(_ i ord0). rewrite !mxE !eqxx /=. exact: R1_neq_R0.
    rewrite qf_dlt /precision subE [(G *m G^T) i i]mxE.
    have : Rle 0 (\sum_j G i j * G^T j i)%R by apply: sumR_ge0 => a _; rewrite mxE; exact: Rle_0_sqr.
    rewrite [(diag_mx _) i i]mxE eqxx mulr1n mxE. move: (\sum_j _) => s H1 H2. have H3 : (0 < e i ord0 - s)%re := H2. change (0 < e i ord0)%re. lra.
  Qed.
  Lemma KDiG e G : pos_vec e -> precision e G *m Di e *m G = G *m Cm e G.
  Proof. move=> He. rewrite /precision /Cm mulmxBl DDi // mulmxBl mul1mx mulmxBr mulmx1 !mulmxA. by []. Qed.
  Lemma C_spd e G : spd (precision e G) -> spd (Cm e G).
  Proof.
    move=> HK. have He := K_pos HK. have [_ HKq] := HK. split; first exact: C_sym. move=> y Hy.
    set x := Di e *m G *m y. set z := Cm e G *m y.
    have E1 : G^T *m x = y - z by rewrite /x /z /Cm mulmxBl mul1mx !mulmxA subKr.
    have E2 : precision e G *m x = G *m z by rewrite /x /z !mulmxA KDiG.
    have E3 : qf (precision e G) x = qf (Cm e G) y - nsq z.
      rewrite /qf -mulmxA E2 mulmxA. have -> : x^T *m G = (G^T *m x)^T by rewrite [RHS]trmx_mul trmxK. rewrite E1 trB mulmxBl subE. rewrite /nsq. by rewrite -mulmxA -/z.
    have Hz := nsq_ge0 z. case: (boolP (x == 0)) => [/eqP E0|Hx].
    - have E4 : y = z by apply/eqP; rewrite -subr_eq0 -E1 E0 mulmx0.
      have E5 : qf (Cm e G) y = nsq z. move: E3. rewrite {1}/qf E0 mulmx0 mxE. move: (qf _ _) (nsq z) => a b. toR. move=> H. eqR. lra.
      rewrite E5 -E4. exact: nsq_gt0.
    - have := HKq x Hx. rewrite E3. move: (qf _ _) (nsq z) Hz => a b. toR. lra.
  Qed.
  Lemma C_unit e G : spd (precision e G) -> Cm e G \in unitmx.
  Proof. move=> H. apply: spd_unit. exact: C_spd. Qed.
  Lemma K_inv e G : spd (precision e G) -> invmx (precision e G) = Di e + Di e *m G *m invmx (Cm e G) *m G^T *m Di e.
  Proof.
    move=> HK. have He := K_pos HK. have Hu := spd_unit HK.
    have E : precision e G *m (Di e + Di e *m G *m invmx (Cm e G) *m G^T *m Di e) = 1%:M.
      rewrite mulmxDr !mulmxA KDiG // -[G *m Cm e G *m _]mulmxA mulmxV ?C_unit // mulmx1 /precision mulmxBl DDi //. by rewrite subrK.
    by rewrite -[LHS]mulmx1 -E mulmxA mulVmx // mul1mx.
  Qed.
  Lemma K_invG e G : spd (precision e G) -> invmx (precision e G) *m G = Di e *m G *m invmx (Cm e G).
  Proof.
    move=> HK. have He := K_pos HK. have Hu := spd_unit HK. have E : precision e G *m (Di e *m G *m invmx (Cm e G)) = G.
      by rewrite !mulmxA KDiG // -mulmxA mulmxV ?C_unit // mulmx1.
    rewrite -[RHS](mul1mx) -(mulVmx Hu) -[RHS]mulmxA. by congr (_ *m _).
  Qed.

  (** ** The block matrix. *)
  Lemma big_det e G : \det (big_matrix e G) = \det (precision e G).
  Proof.
    have -> : big_matrix e G = block_mx 1%:M G 0 1%:M *m block_mx (precision e G) 0 G^T 1%:M.
      rewrite mulmx_block !mul0mx !mul1mx !mulmx1 !add0r /precision subrK. by [].
    by rewrite det_mulmx det_ublock det_lblock !det1 !mul1r mulr1.
  Qed.
  Lemma big_qf e G (x : vec) (y : 'cV[R]_k) : qf (big_matrix e G) (col_mx x y) = qf (precision e G) x + nsq (y + G^T *m x).
  Proof.
    rewrite /qf /big_matrix tr_col_mx mul_row_block mul_row_col !mulmx1 /nsq /precision !mulmxDl !mulmxBr !mulmxBl !trD !mulmxDl !mulmxDr !trmx_mul trmxK !mulmxA.
    move: (_ *m diag_mx _ *m _) (x^T *m G *m G^T *m x) (y^T *m G^T *m x) (x^T *m G *m y) (y^T *m y) => A B C D E.
    rewrite !mxE. move: (A 0 0) (B 0 0) (C 0 0) (D 0 0) (E 0 0) => a b c d f. Rring.
  Qed.
  Lemma big_spd e G : spd (big_matrix e G) <-> spd (precision e G).
  Proof.
    split.
    - move=> [_ H]. split; first exact: K_sym. move=> x Hx. have /H : col_mx x (- (G^T *m x)) != 0.
        apply: contraNneq Hx => /eqP. by rewrite col_mx_eq0 => /andP [].
      rewrite big_qf addNr /nsq mulmx0 mxE. move: (qf _ _) => a. toR. lra.
    - move=> [_ H]. split.
        by rewrite /sym /big_matrix tr_block_mx tr_diag_mx trmxK trmx1.
      move=> z. rewrite -[z]vsubmxK. set x := usubmx z. set y := dsubmx z => Hz. rewrite big_qf.
      case: (boolP (x == 0)) => [/eqP E|Hx].
      + rewrite E mulmx0 addr0 /qf mulmx0 mxE. have : y != 0 by apply: contraNneq Hz => ->; rewrite E col_mx0.
        move/nsq_gt0. move: (nsq y) => a. toR. lra.
      + have := H x Hx. have := nsq_ge0 (y + G^T *m x). move: (qf _ _) (nsq _) => a b. toR. lra.
  Qed.

  (** ** Construction and build. *)
  Lemma chol_ok m (A : 'M[R]_m) : spd A -> exists L, np_chol A = Ok L /\ L *m L^T = A.
  Proof.
    move=> HA. have [L E] := chol_complete HA. exists L. rewrite /np_chol E. split=> //. by have [_ [_ ->]] := chol_is_chol (proj1 HA) E.
  Qed.
  Lemma inv_ok m (A : 'M[R]_m) : spd A -> np_inv A = Ok (invmx A).
  Proof. move=> HA. by rewrite /np_inv (spd_unit HA). Qed.
  Lemma Di_rcp d : pos_vec d -> diag_mx (\col_i rcp (d i 0))^T = Di d.
  Proof. move=> _. congr diag_mx. apply/rowP => i. by rewrite !mxE. Qed.
  Lemma new_ok Sg F d : pos_vec d -> exists G, new_state Sg F d = Ok (mkState (\col_i rcp (d i 0)) G Sg false) /\
    precision (\col_i rcp (d i 0)) G = invmx (factor_model F d).
  Proof.
    move=> Hd. rewrite /new_state inverse_ok //= rt_Di mulmxA addrC -/(Wm F d) (inv_ok (W_spd F Hd)) /=.
    have [L [E1 E2]] := chol_ok (G_spd F Hd). rewrite -/(Gm F d) E1 /=. eexists. split; first by reflexivity.
    rewrite /precision rt_Di Di_rcp // V_inv //. congr (_ - _). rewrite !trmx_mul Di_sym /Lm -E2 !mulmxA. by [].
  Qed.
  Lemma K_spd_of F d : pos_vec d -> spd (invmx (factor_model F d)).
  Proof. move=> Hd. apply: spd_inv. exact: fm_spd. Qed.
  Lemma build_ok s : spd (precision (s_e s) (s_G s)) -> exists F, build s = Ok (F, \col_i rcp (s_e s i 0)) /\ pos_vec (\col_i rcp (s_e s i 0)) /\
    factor_model F (\col_i rcp (s_e s i 0)) = invmx (precision (s_e s) (s_G s)).
  Proof.
    move=> HK. have He := K_pos HK. rewrite /build inverse_ok //= rt_Di mulmxA -/(Cm (s_e s) (s_G s)) (inv_ok (C_spd HK)) /=.
    have [L [E1 E2]] := chol_ok (spd_inv (C_spd HK)). rewrite E1 /=. eexists. split; first by reflexivity. split; first exact: pos_rcp.
    rewrite /factor_model rt_Di Di_rcp // K_inv // addrC. congr (_ + _). rewrite !trmx_mul Di_sym -E2 !mulmxA. by [].
  Qed.
  Lemma rcpK d : pos_vec d -> \col_i rcp ((\col_i rcp (d i 0)) i 0) = d.
  Proof. move=> Hd. apply/colP => i. rewrite !mxE /rcp. have := Hd i. move: (d i 0) => x Hx. eqR. field. lra. Qed.
  Lemma round_trip Sg F d : pos_vec d -> exists s F', new_state Sg F d = Ok s /\ build s = Ok (F', d) /\ F' *m F'^T = F *m F^T.
  Proof.
    move=> Hd. have [G [E HK]] := new_ok Sg F Hd. set s := mkState _ _ _ _ in E. exists s.
    have HKs : spd (precision (s_e s) (s_G s)) by rewrite /= HK; exact: K_spd_of. have [F' [E1 [E2 E3]]] := build_ok HKs. rewrite /= rcpK // in E1 E3.
    exists F'. split=> //. split=> //. rewrite HK invmxK /factor_model in E3. exact: (addIr _ E3).
  Qed.

  (** ** The objective. *)
  Lemma fro_tr m p (N : 'M[R]_(m, p)) : \sum_i \sum_a N i a * N i a = \tr (N^T *m N).
  Proof. rewrite mxtrace_mulC /mxtrace. apply: eq_bigr => i _. rewrite mxE. apply: eq_bigr => a _. by rewrite mxE. Qed.
  Lemma tr_split Sg e G : \tr (Sg *m diag_mx e^T) - \tr (G^T *m Sg *m G) = \tr (Sg *m precision e G).
  Proof. rewrite /precision mulmxBr raddfB /=. congr (_ - _). by rewrite -mulmxA mxtrace_mulC mulmxA. Qed.
  Definition dev2 Sg e G : R := (- ln (\det (precision e G)) + \tr (Sg *m precision e G)%R)%re.
  Lemma objective_ok s : spd (s_Sigma s) -> spd (precision (s_e s) (s_G s)) -> objective s = Ok (dev2 (s_Sigma s) (s_e s) (s_G s)).
  Proof.
    move=> HS HK. rewrite /objective. have [L [E1 E2]] := chol_ok HS. rewrite E1 /= big_det. have Hd := spd_det HK.
    case: Req_EM_T => [E|Hn]; first by have Hn := Rgt_not_eq _ _ Hd; case: Hn. congr Ok. clear Hn. rewrite fro_tr !trmx_mul trmxK -!mulmxA [L *m _]mulmxA E2 mulmxA.
    rewrite -addrA tr_split. rewrite Rabs_right //. apply: Rle_ge. exact: Rlt_le.
  Qed.
  Lemma dev_loglik Sg (V : 'M[R]_n) : spd V -> (- 2 * loglik Sg V)%re = (ln (\det V) + \tr (invmx V *m Sg)%R)%re.
  Proof. move=> _. rewrite /loglik. field. Qed.
  Lemma lndet_inv (V : 'M[R]_n) : spd V -> ln (\det (invmx V)) = (- ln (\det V))%re.
  Proof. move=> HV. rewrite det_inv. have H := spd_det HV. rewrite RinvE; last by apply: Rgt_not_eq. exact: ln_Rinv. Qed.
  Lemma dev2_loglik Sg e G : spd (precision e G) -> dev2 Sg e G = (- 2 * loglik Sg (invmx (precision e G)))%re.
  Proof. move=> HK. rewrite dev_loglik; last exact: spd_inv. rewrite invmxK lndet_inv // mxtrace_mulC. by []. Qed.
End Ccp.
