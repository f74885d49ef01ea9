(** * get_moving_autocorrelations: proofs. *)
From Coq Require Import Reals Lra ZArith List Lia.
Set Warnings "-notation-overridden,-ambiguous-paths".
From mathcomp Require Import all_ssreflect all_algebra.
From Verif Require Import RStruct MatR Num Py RetComb SpecRet RetEwm RetPred Signals SpecSignals SignalQuant SignalSign.
Set Implicit Arguments.
Unset Strict Implicit.
Unset Printing Implicit Defensive.
Import GRing.Theory.
Local Open Scope ring_scope.
Delimit Scope R_scope with re.
Delimit Scope Z_scope with z.

Section Auto.
  Context (a : R) (Ha : (0 < a)%re).
  Implicit Types x y : nat -> option R.
  Notation prod x y := (fun s => mul_opt (x s) (y s)).

  Lemma sum_square n (w f g : 'I_n -> R) p q : \sum_i w i * ((p * f i - q * g i)%re * (p * f i - q * g i)%re) =
    p * p * (\sum_i w i * (f i * f i)) + (- (2 * p * q))%re * (\sum_i w i * (f i * g i)) + q * q * (\sum_i w i * (g i * g i)).
  Proof. rewrite !big_distrr -!big_split /=. apply: eq_bigr => i _. toR. eqR. ring. Qed.
  Lemma cauchy_sum n (w f g : 'I_n -> R) : (forall i, (0 < w i)%re) ->
    ((\sum_i w i * (f i * g i))%R * (\sum_i w i * (f i * g i))%R <= (\sum_i w i * (f i * f i))%R * (\sum_i w i * (g i * g i))%R)%re.
  Proof.
    move=> Hw. set A := (\sum_i w i * (f i * f i))%R. set B := (\sum_i w i * (f i * g i))%R. set C := (\sum_i w i * (g i * g i))%R.
    have H0 i : (0 <= w i * (f i * f i))%re by apply: Rmult_le_pos; [exact: Rlt_le|exact: Rle_0_sqr].
    have HA : (0 <= A)%re by apply: sumR_ge0 => i _; exact: H0.
    have [HA0|HA0] := Req_dec A 0.
    - have Hf i : f i = 0.
      { have := sumR_eq0 H0 HA0 i => /Rmult_integral [H|H]; first by have := Hw i; rewrite H => /Rlt_irrefl. exact: Rsqr_0_uniq. }
      have -> : B = 0 by apply: big1 => i _; rewrite Hf mul0r mulr0.
      rewrite HA0. toR. lra.
    - have Hq : (0 <= \sum_i w i * ((B * f i - A * g i)%re * (B * f i - A * g i)%re))%re.
      { apply: sumR_ge0 => i _. apply: Rmult_le_pos; [exact: Rlt_le|exact: Rle_0_sqr]. }
      have E : (\sum_i w i * ((B * f i - A * g i)%re * (B * f i - A * g i)%re) = B * B * A - 2 * A * B * B + A * A * C)%re.
      { rewrite sum_square -/A -/B -/C. toR. eqR. ring. }
      rewrite E in Hq. have HApos : (0 < A)%re by lra.
      nra.
  Qed.

  Lemma sumE x y t : seen_sum a (prod x y) t = \sum_(s < t) a ^+ (t.-1 - s) * (odflt 0 (x s) * odflt 0 (y s)).
  Proof. apply: eq_bigr => s _. case: (x s) => [v|]; case: (y s) => [u|] //=; by rewrite ?mul0r ?mulr0 ?mulr0. Qed.
  Lemma weight_prod_self x t : seen_weight a (prod x x) t = seen_weight a x t.
  Proof. apply: eq_bigr => s _. by case: (x s). Qed.
  Lemma seen_prod_self x t : seen (prod x x) t = seen x t.
  Proof. apply: eq_existsb => s. by case: (x s). Qed.
  Lemma sq_ge0 x t : (0 <= seen_sum a (prod x x) t)%re.
  Proof. rewrite sumE. apply: sumR_ge0 => s _. apply: Rmult_le_pos; [exact: Rlt_le (pow_pos Ha _)|exact: Rle_0_sqr]. Qed.
  Lemma sq_eq0 x t : seen_sum a (prod x x) t = 0 -> forall s v, (s < t)%N -> x s = Some v -> v = 0.
  Proof.
    rewrite sumE => H s v Hs E.
    have H0 (i : 'I_t) : (0 <= a ^+ (t.-1 - i) * (odflt 0 (x i) * odflt 0 (x i)))%re.
    { apply: Rmult_le_pos; [exact: Rlt_le (pow_pos Ha _)|exact: Rle_0_sqr]. }
    have := sumR_eq0 H0 H (Ordinal Hs) => /Rmult_integral [H1|]; first by have := pow_pos Ha (t.-1 - Ordinal Hs); rewrite H1 => /Rlt_irrefl.
    rewrite /= E /=. exact: Rsqr_0_uniq.
  Qed.
  (** The ratio of one day. *)
  Definition ratio x y t : option R := div_opt (past_mean a (prod x y) t) (mul_opt (omap sqrt (past_mean a (prod x x) t)) (omap sqrt (past_mean a (prod y y) t))).
  Lemma seen_both x y t : seen (prod x y) t -> seen x t /\ seen y t.
  Proof.
    move/existsP => [s Hs]. move: Hs. case Ex : (x s) => [u|] //. case Ey : (y s) => [v|] // _.
    split; apply/existsP; exists s; by rewrite ?Ex ?Ey.
  Qed.
  Lemma pmE x t : past_mean a x t = if seen x t then Some (seen_sum a x t / seen_weight a x t)%re else None. Proof. by []. Qed.
  Lemma ratio_spec x y t :
    let Wxy := seen_weight a (prod x y) t in let Wx := seen_weight a x t in let Wy := seen_weight a y t in
    let Sxy := seen_sum a (prod x y) t in let Sxx := seen_sum a (prod x x) t in let Syy := seen_sum a (prod y y) t in
    match ratio x y t with
    | Some rho => (0 < Wxy)%re /\ (0 < Sxx)%re /\ (0 < Syy)%re /\
        (rho * (sqrt (Sxx / Wx) * sqrt (Syy / Wy)) = Sxy / Wxy)%re /\ (Rabs rho <= sqrt (Wx * Wy) / Wxy)%re
    | None => (forall s, (s < t)%N -> mul_opt (x s) (y s) = None) \/
        (forall s v, (s < t)%N -> x s = Some v -> v = 0) \/ (forall s v, (s < t)%N -> y s = Some v -> v = 0)
    end.
  Proof.
    move=> Wxy Wx Wy Sxy Sxx Syy. rewrite /ratio !pmE. case Hs : (seen (prod x y) t); last first.
    { rewrite /=. left. move=> s Hs'. move/existsPn: (negbT Hs) => /(_ (Ordinal Hs')) /=. by case: (mul_opt _ _). }
    have [Hx Hy] := seen_both Hs. rewrite !seen_prod_self Hx Hy /= !weight_prod_self.
    have HWxy := seen_pos Ha Hs. have HWx := seen_pos Ha Hx. have HWy := seen_pos Ha Hy.
    rewrite -/Wxy -/Wx -/Wy -/Sxy -/Sxx -/Syy in HWxy HWx HWy *.
    have HSx : (0 <= Sxx)%re := sq_ge0 x t. have HSy : (0 <= Syy)%re := sq_ge0 y t.
    have [Zx|Zx] := Req_dec Sxx 0; last have [Zy|Zy] := Req_dec Syy 0.
    - rewrite Zx. case: ReqbP => [_|H]; first by right; left; exact: sq_eq0.
      exfalso. apply: H. rewrite /Rdiv Rmult_0_l sqrt_0. ring.
    - rewrite Zy. case: ReqbP => [_|H]; first by right; right; exact: sq_eq0.
      exfalso. apply: H. rewrite /Rdiv Rmult_0_l sqrt_0. ring.
    - have {}HSx : (0 < Sxx)%re by lra. have {}HSy : (0 < Syy)%re by lra.
      have Hdx : (0 < sqrt (Sxx / Wx))%re by apply: sqrt_lt_R0; apply: Rdiv_lt_0_compat.
      have Hdy : (0 < sqrt (Syy / Wy))%re by apply: sqrt_lt_R0; apply: Rdiv_lt_0_compat.
      have Hd := Rmult_lt_0_compat _ _ Hdx Hdy.
      case: ReqbP => [H|_]; first by exfalso; lra.
      do 3 (split => //). split; first by field; lra.
      have HC : (Sxy * Sxy <= Sxx * Syy)%re.
      { rewrite /Sxy /Sxx /Syy !sumE. apply: (cauchy_sum (w := fun s : 'I_t => a ^+ (t.-1 - s))) => s. exact: pow_pos. }
      have HW : (0 < Wx * Wy)%re := Rmult_lt_0_compat _ _ HWx HWy.
      apply: Rsqr_incr_0_var; last by apply: Rmult_le_pos; [exact: sqrt_pos|apply: Rlt_le; exact: Rinv_0_lt_compat].
      rewrite -Rsqr_abs. rewrite !Rsqr_div'. rewrite Rsqr_mult !Rsqr_sqrt; try lra; try (apply: Rlt_le; apply: Rdiv_lt_0_compat => //).
      have E : ((Sxx / Wx) * (Syy / Wy) = Sxx * Syy / (Wx * Wy))%re by field; lra.
      rewrite E /Rsqr. have HSS := Rmult_lt_0_compat _ _ HSx HSy.
      apply: (Rmult_le_reg_r (Wxy * Wxy)%re); first exact: Rmult_lt_0_compat.
      apply: (Rmult_le_reg_r (Sxx * Syy / (Wx * Wy))%re); first exact: Rdiv_lt_0_compat.
      have -> : (Sxy * Sxy / (Wxy * Wxy) / (Sxx * Syy / (Wx * Wy)) * (Wxy * Wxy) * (Sxx * Syy / (Wx * Wy)) = Sxy * Sxy)%re.
      { field. repeat split; lra. }
      have -> : (Wx * Wy / (Wxy * Wxy) * (Wxy * Wxy) * (Sxx * Syy / (Wx * Wy)) = Sxx * Syy)%re by field; repeat split; lra.
      exact: HC.
  Qed.
End Auto.

Lemma moving_nth h x y out t : moving_autocorrelation h x y = Ok out -> size x = size y -> (t < size x)%N ->
  nth None out t = ratio (half_decay h) (fun s => nth None x s) (fun s => nth None y s) t.+1.
Proof.
  rewrite /moving_autocorrelation. case: RltbP => // Hh [<-] Hs Ht. rewrite halflifeE.
  have Ht' : (t < size y)%N by rewrite -Hs.
  have Hz : size (zip x y) = size x by rewrite size_zip -Hs minnn.
  rewrite (nth_map (None, (None, None))); last by rewrite !size_zip !ewm_size !size_map Hz -Hs !minnn.
  rewrite !nth_zip /=; [|by rewrite !ewm_size !size_map Hs|by rewrite size_zip !ewm_size !size_map Hz -Hs minnn].
  rewrite !ewm_nth ?size_map ?Hz //; try exact: half_pos.
  have ext u v k : (forall s, (s < k)%N -> u s = v s) -> past_mean (half_decay h) u k = past_mean (half_decay h) v k.
  { move=> E. rewrite /past_mean /seen_sum /seen_weight.
    have -> : [exists s : 'I_k, u s] = [exists s : 'I_k, v s] by apply: eq_existsb => s; rewrite E.
    case: ifP => // _. by congr (Some (_ / _)%re); apply: eq_bigr => s _; rewrite E. }
  rewrite /ratio. congr div_opt; [|congr mul_opt; congr (omap sqrt _)]; apply: ext => s Hst.
  - rewrite (nth_map (None, None)) ?Hz; last exact: leq_trans Hst Ht. by rewrite nth_zip.
  - by rewrite (nth_map None) // (leq_trans Hst Ht).
  - by rewrite (nth_map None) // (leq_trans Hst Ht').
Qed.
Lemma moving_size h x y out : moving_autocorrelation h x y = Ok out -> size x = size y -> size out = size x.
Proof.
  rewrite /moving_autocorrelation. case: RltbP => // Hh [<-] Hs. by rewrite size_map !size_zip !ewm_size !size_map size_zip -Hs !minnn.
Qed.
Lemma moving_total h x y : (0 < h)%re -> exists out, moving_autocorrelation h x y = Ok out.
Proof. rewrite /moving_autocorrelation => Hh. case: RltbP => // _. by eexists. Qed.
Lemma moving_error h x y : (h <= 0)%re -> moving_autocorrelation h x y = Raise ValueError.
Proof. rewrite /moving_autocorrelation => Hh. case: RltbP => // ?. lra. Qed.
Lemma moving_range h x y out t : moving_autocorrelation h x y = Ok out -> size x = size y -> (t < size x)%N ->
  let X s := nth None x s in let Y s := nth None y s in let XY s := mul_opt (X s) (Y s) in
  let W z := seen_weight (half_decay h) z t.+1 in let S z := seen_sum (half_decay h) z t.+1 in
  match nth None out t with
  | Some rho => (0 < W XY)%re /\ (0 < S (fun s => mul_opt (X s) (X s)))%re /\ (0 < S (fun s => mul_opt (Y s) (Y s)))%re /\
      (rho * (sqrt (S (fun s => mul_opt (X s) (X s)) / W X) * sqrt (S (fun s => mul_opt (Y s) (Y s)) / W Y)) = S XY / W XY)%re /\
      (Rabs rho <= sqrt (W X * W Y) / W XY)%re
  | None => (forall s, (s <= t)%N -> XY s = None) \/
      (forall s v, (s <= t)%N -> X s = Some v -> v = 0) \/ (forall s v, (s <= t)%N -> Y s = Some v -> v = 0)
  end.
Proof. move=> H Hs Ht X Y XY W S. rewrite (moving_nth H Hs Ht). exact: (@ratio_spec (half_decay h) (half_pos h) X Y t.+1). Qed.

Lemma moving_full h x y out t rho : moving_autocorrelation h x y = Ok out -> size x = size y -> None \notin x -> None \notin y ->
  (t < size x)%N -> nth None out t = Some rho -> (-1 <= rho <= 1)%re.
Proof.
  move=> H Hs Hx Hy Ht E. have := moving_range H Hs Ht. rewrite /= E => -[HW [_ [_ [_ Hb]]]].
  have some z s : None \notin z -> (s < size z)%N -> isSome (nth None z s).
  { move=> Hz Hsz. case Ez : (nth None z s) => //. by rewrite -Ez mem_nth in Hz. }
  have Wfull z : (forall s, (s <= t)%N -> isSome (z s)) -> seen_weight (half_decay h) z t.+1 = \sum_(s < t.+1) half_decay h ^+ (t - s).
  { move=> Hz. apply: eq_bigr => s _. have := Hz s (leq_ord s). by case: (z s). }
  have Hxs s : (s <= t)%N -> isSome (nth None x s) by move=> Hst; apply: some => //; exact: leq_ltn_trans Hst Ht.
  have Hys s : (s <= t)%N -> isSome (nth None y s) by move=> Hst; apply: some => //; rewrite -Hs; exact: leq_ltn_trans Hst Ht.
  rewrite (Wfull _ Hxs) (Wfull _ Hys) in Hb HW. rewrite Wfull in Hb HW; last first.
  { move=> s Hst. have := Hxs s Hst. have := Hys s Hst. by case: (nth None x s) => [?|] //; case: (nth None y s). }
  move: (\sum_(s < t.+1) _) Hb HW => W Hb HW. 
  have : (Rabs rho <= 1)%re.
  { apply: Rle_trans Hb _. rewrite sqrt_square; last lra. right. field. lra. }
  move=> Hr. have [? ?] := Rabs_def2 rho 2 ltac:(lra). move: Hr. rewrite /Rabs. case: Rcase_abs => ?; lra.
Qed.

(** Correlation with yesterday's return, as the notebook uses it. *)
Lemma moving_lag h x out : moving_autocorrelation h x (shift_series 1%z x) = Ok out -> None \notin x ->
  (0 < size x -> nth None out 0 = None)%N /\
  forall t rho, (0 < t)%N -> (t < size x)%N -> nth None out t = Some rho ->
   (Rabs rho <= sqrt (1 + half_decay h ^+ t / (\sum_(s < t) half_decay h ^+ s)%R))%re.
Proof.
  move=> H Hx. have Hs : size x = size (shift_series 1%z x) by rewrite shift1_size.
  have somex s : (s < size x)%N -> isSome (nth None x s).
  { move=> Hsz. case Ez : (nth None x s) => //. by rewrite -Ez mem_nth in Hx. }
  split.
  - move=> H0. rewrite (moving_nth H Hs H0) /ratio.
    have -> : past_mean (half_decay h) (fun s => mul_opt (nth None x s) (nth None (shift_series 1%z x) s)) 1 = None; last by [].
    rewrite /past_mean. case: existsP => // -[[s Hs1]] /=. move: Hs1. rewrite ltnS leqn0 => /eqP ->. rewrite shift1_nth //. by case: (nth None x 0).
  - move=> t rho Ht0 Ht E. have := moving_range H Hs Ht. rewrite /= E => -[HW [_ [_ [_ Hb]]]].
    set a := half_decay h in HW Hb *. have Ha : (0 < a)%re := half_pos h.
    set W1 := (\sum_(s < t) a ^+ s)%R.
    have sh s : (s < t)%N -> isSome (nth None (shift_series 1%z x) s.+1) by move=> Hst; rewrite shift1_nth; [apply: somex; exact: ltn_trans Hst Ht|exact: leq_ltn_trans Hst Ht].
    have E1 z : z 0%N = None -> (forall s, (s < t)%N -> isSome (z s.+1)) -> seen_weight a z t.+1 = W1.
    { move=> Z0' Zs. rewrite /seen_weight big_ord_recl /= Z0' add0r /W1 (reindex_inj rev_ord_inj) /=. apply: eq_bigr => s _.
      have Hr : (t - s.+1 < t)%N by rewrite ltn_subrL.
      have := Zs _ Hr. rewrite /bump /= add1n. case: (z _) => // v _. congr (_ ^+ _). rewrite subnSK // subKn //. exact: ltnW. }
    have E2 : seen_weight a (fun s => nth None x s) t.+1 = a ^+ t + W1.
    { rewrite /seen_weight big_ord_recl /= subn0. have := somex 0%N (ltn_trans Ht0 Ht). case: (nth None x 0) => // v _. congr (_ + _).
      rewrite /W1 (reindex_inj rev_ord_inj) /=. apply: eq_bigr => s _. have Hr : (t - s.+1 < t)%N by rewrite ltn_subrL.
      rewrite /bump /= add1n. have := somex (t - s.+1).+1 (leq_ltn_trans Hr Ht). case: (nth None x _) => // u _. congr (_ ^+ _). rewrite subnSK // subKn //. exact: ltnW. }
    rewrite E2 in Hb. rewrite !E1 // in Hb HW; first last.
    + by rewrite shift1_nth //; exact: ltn_trans Ht.
    + move=> s Hst. have := sh _ Hst. have := somex s.+1 (leq_ltn_trans Hst Ht). by case: (nth None x s.+1) => // ?; case: (nth None (shift_series _ _) _).
    + rewrite shift1_nth; [|exact: ltn_trans Ht]. by case: (nth None x 0).
    apply: Rle_trans Hb _. have Hp := Rlt_le _ _ (pow_pos Ha t). right.
    have HW' : (0 <= W1)%re by lra.
    rewrite -{3}(sqrt_square W1 HW'). rewrite -sqrt_div_alt; last exact: Rmult_lt_0_compat. congr sqrt. move: HW. rewrite /W1. move: (\sum_(s < t) _) (a ^+ t) => u v Hu. toR. eqR. field. lra.
Qed.
Lemma moving_exceeds h : (0 < h)%re -> exists out rho, moving_autocorrelation h [:: Some 1%re; Some 2%re] (shift_series 1%z [:: Some 1%re; Some 2%re]) = Ok out /\
  nth None out 1 = Some rho /\ (1 < rho)%re.
Proof.
  move=> Hh. have [out H] := moving_total [:: Some 1%re; Some 2%re] (shift_series 1%z [:: Some 1%re; Some 2%re]) Hh.
  exists out. set x := [:: Some 1%re; Some 2%re] in H *. have Hs : size x = size (shift_series 1%z x) by rewrite shift1_size.
  have := moving_range H Hs (isT : (1 < size x)%N). rewrite /=.
  set a := half_decay h. have Ha : (0 < a)%re := half_pos h.
  rewrite /seen_weight /seen_sum !big_ord_recl !big_ord0 /= /bump /= ?expr0 ?expr1 ?add0r ?addr0 ?mul1r.
  case: (nth None out 1) => [rho|].
  - move=> [_ [_ [_ [Er _]]]]. exists rho. split => //. split => //. move: Er. toR.
    rewrite (_ : 1 * 1 / 1 = 1)%re ?sqrt_1; last field.
    rewrite (_ : 2 * 1 / 1 = 2)%re; last field.
    rewrite Rmult_1_r. have Hq : (0 <= (a * (1 * 1) + 2 * 2) / (a + 1))%re by apply: Rlt_le; apply: Rdiv_lt_0_compat; nra.
    have Hlt : (sqrt ((a * (1 * 1) + 2 * 2) / (a + 1)) < 2)%re.
    { rewrite -[X in (_ < X)%re](sqrt_square 2); last lra. apply: sqrt_lt_1 => //; [lra|]. apply: (Rmult_lt_reg_r (a + 1)%re); first lra.
      have -> : ((a * (1 * 1) + 2 * 2) / (a + 1) * (a + 1) = a + 4)%re by field; lra. lra. }
    have Hp := sqrt_pos ((a * (1 * 1) + 2 * 2) / (a + 1)). move: (sqrt _) Hlt Hp => s Hlt Hp Es. nra.
  - move=> [H0|[H0|H0]].
    + by have := H0 1%N isT.
    + have := H0 0%N _ isT erefl. toR. lra.
    + have := H0 1%N _ isT erefl. toR. lra.
Qed.
Lemma past_mean_ext a u v k : (forall s, (s < k)%N -> u s = v s) -> past_mean a u k = past_mean a v k.
Proof.
  move=> E. rewrite /past_mean /seen_sum /seen_weight.
  have -> : [exists s : 'I_k, u s] = [exists s : 'I_k, v s] by apply: eq_existsb => s; rewrite E.
  case: ifP => // _. by congr (Some (_ / _)%re); apply: eq_bigr => s _; rewrite E.
Qed.
Lemma moving_prefix h x y out k : moving_autocorrelation h x y = Ok out -> size x = size y ->
  moving_autocorrelation h (take k x) (take k y) = Ok (take k out).
Proof.
  move=> H Hs. have Hh : (0 < h)%re. { move: H. rewrite /moving_autocorrelation. by case: RltbP. }
  have [out' H'] := moving_total (take k x) (take k y) Hh. rewrite H'. congr Ok.
  have Hs' : size (take k x) = size (take k y) by rewrite !size_take Hs.
  have E := moving_size H' Hs'. have E0 := moving_size H Hs.
  apply: (@eq_from_nth _ None); first by rewrite E !size_take E0.
  rewrite E => t Ht. have [Htk Htx] : (t < k)%N /\ (t < size x)%N.
  { move: Ht. rewrite size_take. case: ifP => Hk Ht; split => //; [exact: ltn_trans Ht Hk|]. move/negbT: Hk. rewrite -leqNgt => Hk. exact: leq_trans Ht Hk. }
  rewrite nth_take // (moving_nth H' Hs' Ht) (moving_nth H Hs Htx) /ratio.
  have Hn (z : seq (option R)) s : (s < t.+1)%N -> nth None (take k z) s = nth None z s by move=> Hst; rewrite nth_take //; exact: leq_trans Hst Htk.
  congr div_opt; [|congr mul_opt; congr (omap sqrt _)]; apply: past_mean_ext => s Hst; by rewrite !Hn.
Qed.
Section Units.
  Context (a c d : R) (Ha : (0 < a)%re) (Hc : c <> 0%re) (Hd : d <> 0%re).
  Notation sc e x := (fun s => omap (fun v => (e * v)%re) (x s)).
  Lemma past_mean_scale e u k : past_mean a (sc e u) k = omap (fun v => (e * v)%re) (past_mean a u k).
  Proof.
    rewrite /past_mean. have -> : [exists s : 'I_k, omap (fun v => (e * v)%re) (u s)] = [exists s : 'I_k, u s].
    { apply: eq_existsb => s. by case: (u s). }
    case: ifP => // _ /=. congr Some.
    have -> : seen_weight a (sc e u) k = seen_weight a u k by apply: eq_bigr => s _; case: (u s).
    have -> : seen_sum a (sc e u) k = e * seen_sum a u k.
    { rewrite /seen_sum big_distrr /=. apply: eq_bigr => s _. case: (u s) => [v|] /=; last by rewrite mulr0. toR. eqR. ring. }
    rewrite /Rdiv. toR. eqR. ring.
  Qed.
  Lemma ratio_scale x y k : ratio a (sc c x) (sc d y) k = omap (fun rho => (c * d / (Rabs c * Rabs d) * rho)%re) (ratio a x y k).
  Proof.
    rewrite /ratio.
    have -> : past_mean a (fun s => mul_opt (omap (fun v => (c * v)%re) (x s)) (omap (fun v => (d * v)%re) (y s))) k = omap (fun v => (c * d * v)%re) (past_mean a (fun s => mul_opt (x s) (y s)) k).
    { rewrite -past_mean_scale. apply: past_mean_ext => s _. case: (x s) => [u|]; case: (y s) => [v|] //=. congr Some. ring. }
    have sq e u : past_mean a (fun s => mul_opt (omap (fun v => (e * v)%re) (u s)) (omap (fun v => (e * v)%re) (u s))) k = omap (fun v => (e * e * v)%re) (past_mean a (fun s => mul_opt (u s) (u s)) k).
    { rewrite -past_mean_scale. apply: past_mean_ext => s _. case: (u s) => [v|] //=. congr Some. ring. }
    rewrite !sq. 
    have nn u : match past_mean a (fun s => mul_opt (u s) (u s)) k with Some v => (0 <= v)%re | None => True end.
    { rewrite pmE. case: ifP => // Hs. apply: Rmult_le_pos; [exact: sq_ge0|]. apply: Rlt_le. apply: Rinv_0_lt_compat. exact: seen_pos. }
    have Hx := nn x. have Hy := nn y. move: (past_mean a (fun s => mul_opt (x s) (x s)) k) (past_mean a (fun s => mul_opt (y s) (y s)) k) (past_mean a (fun s => mul_opt (x s) (y s)) k) Hx Hy => [u|] [v|] [w|] //= Hu Hv.
    have S e z : (0 <= z)%re -> sqrt (e * e * z) = (Rabs e * sqrt z)%re.
    { move=> Hz. rewrite sqrt_mult; [|exact: Rle_0_sqr|done]. by rewrite sqrt_Rsqr_abs. }
    rewrite !S //. have Hca := Rabs_pos_lt _ Hc. have Hda := Rabs_pos_lt _ Hd.
    have [Z|Z] := Req_dec (sqrt u * sqrt v)%re 0%re.
    - case: ReqbP => [_|H]; last by exfalso; apply: H; transitivity (Rabs c * Rabs d * (sqrt u * sqrt v))%re; [ring|rewrite Z; ring].
      by case: ReqbP.
    - case: ReqbP => [H|H].
      { exfalso. apply: Z. have : (Rabs c * Rabs d * (sqrt u * sqrt v) = 0)%re by rewrite -H; ring. case/Rmult_integral => // H0. have := Rmult_lt_0_compat _ _ Hca Hda. lra. }
      case: ReqbP => [H1|_] //=. congr Some. field. repeat split; try lra; move=> H1; apply: Z; rewrite H1; ring.
  Qed.
End Units.
Lemma moving_units h x y out c d : moving_autocorrelation h x y = Ok out -> size x = size y -> c <> 0%re -> d <> 0%re ->
  moving_autocorrelation h [seq omap (fun v => (c * v)%re) u | u <- x] [seq omap (fun v => (d * v)%re) u | u <- y] =
  Ok [seq omap (fun rho => (c * d / (Rabs c * Rabs d) * rho)%re) r | r <- out].
Proof.
  move=> H Hs Hc Hd. have Hh : (0 < h)%re. { move: H. rewrite /moving_autocorrelation. by case: RltbP. }
  set x' := map _ x. set y' := map _ y. have [out' H'] := moving_total x' y' Hh. rewrite H'. congr Ok.
  have Hs' : size x' = size y' by rewrite !size_map.
  have E := moving_size H' Hs'. have E0 := moving_size H Hs.
  apply: (@eq_from_nth _ None); first by rewrite E !size_map E0.
  rewrite E size_map => t Ht. have Ht' : (t < size x')%N by rewrite size_map.
  rewrite (nth_map None) ?E0 // (moving_nth H' Hs' Ht') (moving_nth H Hs Ht) -ratio_scale //; last exact: half_pos.
  rewrite /ratio.
  have Hn e (z : seq (option R)) s : nth None [seq omap (fun v => (e * v)%re) u | u <- z] s = omap (fun v => (e * v)%re) (nth None z s).
  { case: (ltnP s (size z)) => Hz; [by rewrite (nth_map None)|by rewrite !nth_default // size_map]. }
  congr div_opt; [|congr mul_opt; congr (omap sqrt _)]; apply: past_mean_ext => s Hst; by rewrite !Hn.
Qed.
