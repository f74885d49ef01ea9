(** * Log-likelihood functions of experiment_utils.py. *)
From Coq Require Import Reals ZArith String List Lia Lra.
Set Warnings "-notation-overridden,-ambiguous-paths".
From mathcomp Require Import all_ssreflect all_algebra.
From mathcomp.zify Require Import zify_ssreflect.
From Verif Require Import RStruct MatR Spectral Num Py CombFacts Combination CombScale Regularization SpecReg EmFacts ExpUtils SpecExp.
Set Implicit Arguments.
Unset Strict Implicit.
Unset Printing Implicit Defensive.
Import GRing.Theory.
Local Open Scope ring_scope.
Delimit Scope R_scope with re.

Lemma ln_sqrt (x : R) : (0 < x)%re -> ln (sqrt x) = (/ 2 * ln x)%re.
Proof.
  move=> Hx. have Hs := sqrt_lt_R0 _ Hx. have E: ln x = (ln (sqrt x) + ln (sqrt x))%re.
  { rewrite -ln_mult // sqrt_sqrt //. exact: Rlt_le. } rewrite E. field.
Qed.

Lemma unit_dim0 k (S : 'M[R]_k) : k = 0%N -> S \in unitmx.
Proof. move=> E; subst k. by rewrite unitmxE det_mx00 unitr1. Qed.
Lemma zero_not_unit k : (0 < k)%N -> ((0 : 'M[R]_k) \in unitmx) = false.
Proof. case: k => [//|k] _. by rewrite unitmxE det0 unitr0. Qed.

Section LL.
  Context (n : nat).
  Notation vec := 'cV[R]_n.
  Notation mat := 'M[R]_n.
  Implicit Types (r m : vec) (S : mat).

  Lemma density_ln r m S : (0 < \det S)%re ->
    ln (normal_density m S r) = (- INR n / 2 * ln (2 * PI) - 1 / 2 * ln (\det S) - 1 / 2 * qf (invmx S) (r - m)%R)%re.
  Proof.
    move=> Hd. rewrite /normal_density. move: (qf _ _) (\det S) Hd => q d Hd.
    have H2pi: (0 < 2 * PI)%re by have := PI_RGT_0; lra.
    have Hp: (0 < (2 * PI) ^ n)%re by apply: pow_lt. have HA: (0 < (2 * PI) ^ n * d)%re by apply: Rmult_lt_0_compat.
    rewrite ln_mult; [|by apply: Rinv_0_lt_compat; apply: sqrt_lt_R0|exact: exp_pos].
    rewrite ln_exp ln_Rinv; last exact: sqrt_lt_R0. rewrite ln_sqrt // ln_mult // ln_pow //. field.
  Qed.
  Lemma ll_density r m S : spd S -> ll_formula r m S = Some (ln (normal_density m S r)).
  Proof.
    move=> HS. have Hd := spd_det HS. rewrite /ll_formula /log_opt. case: Rlt_dec => // _ /=. by rewrite density_ln.
  Qed.

  Lemma qf_scalev (c : R) S x : qf S (c *: x) = c * c * qf S x.
  Proof. by rewrite /qf trZ -!scalemxAl -!scalemxAr scalerA mxE. Qed.
  Lemma pow2_ne (c : R) : c <> 0 -> (c ^ 2)%re <> 0.
  Proof. move=> Hc. exact: pow_nonzero. Qed.
  Lemma unit_scale (c : R) S : c <> 0 -> (c *: S \in unitmx) = (S \in unitmx).
  Proof. move=> /eqP Hc. by rewrite unitmxZ // unitfE. Qed.
  Lemma powE (c : R) k : c ^+ k = (c ^ k)%re.
  Proof. elim: k => [|k IH]; first by rewrite expr0. by rewrite exprS IH. Qed.

  (** Scaling returns, means and standard deviations by c shifts the log-likelihood by -n ln |c|. *)
  Lemma ll_scale (c : R) r m S : c <> 0 -> S \in unitmx ->
    ll_formula (c *: r) (c *: m) ((c ^ 2)%re *: S) = omap (fun v : R => (v - INR n * ln (Rabs c))%re) (ll_formula r m S).
  Proof.
    move=> Hc Hu. rewrite /ll_formula detZ powE. have Hc2: (0 < c ^ 2)%re by rewrite -Rsqr_pow2; apply: Rlt_0_sqr.
    have E: ln (c ^ 2) = (2 * ln (Rabs c))%re.
    { rewrite -pow2_abs /= Rmult_1_r. have Ha := Rabs_pos_lt _ Hc. rewrite ln_mult //. ring. }
    have E2: (c ^ 2)%re = (c * c)%re by rewrite /= Rmult_1_r.
    rewrite invZ //; last by apply: Rgt_not_eq. rewrite qfZ -scalerBr qf_scalev.
    move: (c ^ 2)%re Hc2 E E2 => s Hs E E2. have Hcn: (0 < s ^ n)%re by apply: pow_lt.
    move: (qf _ _) (\det S) => q d. rewrite /log_opt. case: (Rlt_dec 0 d) => Hd.
    - case: (Rlt_dec 0 ((s ^ n)%re * d)%R) => [Hdd|H]; last by case: H; apply: Rmult_lt_0_compat. rewrite /=; congr Some.
      toR; eqR. rewrite (ln_mult (s ^ n) d) // ln_pow // E E2. field. exact: Hc.
    - case: (Rlt_dec 0 ((s ^ n)%re * d)%R) => // H. case: Hd. apply: (Rmult_lt_reg_l (s ^ n)) => //. by rewrite Rmult_0_r.
  Qed.

  Lemma zip_map_scale (c : R) (rs ms : seq vec) : zip [seq c *: r | r <- rs] [seq c *: m | m <- ms] = [seq (c *: p.1, c *: p.2) | p <- zip rs ms].
  Proof. by elim: rs ms => [|r rs IH] [|m ms] //=; rewrite IH. Qed.
  Lemma zip_map2 (A A' B B' : Type) (f : A -> A') (g : B -> B') (xs : seq A) (ys : seq B) :
    zip (map f xs) (map g ys) = [seq (f p.1, g p.2) | p <- zip xs ys].
  Proof. by elim: xs ys => [|x xs IH] [|y ys] //=; rewrite IH. Qed.

  Lemma broadcast_map (A A' B B' : Type) (f : A -> A') (g : B -> B') (xs : seq A) (ys : seq B) :
    broadcast (map f xs) (map g ys) = do l <- broadcast xs ys; Ok [seq (f p.1, g p.2) | p <- l].
  Proof.
    rewrite /broadcast !size_map. case: ifP => _ /=; first by rewrite zip_map2.
    by case: xs ys => [|x [|x' xs]] [|y [|y' ys]] //=; rewrite -?map_comp.
  Qed.

  Lemma broadcast_all (A B : Type) (Q : B -> bool) (xs : seq A) (ys : seq B) l : broadcast xs ys = Ok l -> all Q ys -> all (fun p => Q p.2) l.
  Proof.
    rewrite /broadcast. case: ifP => [/eqP Hs [<-]|_].
    - elim: xs ys Hs => [|x xs IH] [|y ys] //= [Hs] /andP[-> H] /=. exact: IH.
    - have H1 (x : A) zs : all Q zs -> all (fun p : A * B => Q p.2) [seq (x, y) | y <- zs] by rewrite all_map.
      have H2 (y : B) (zs : seq A) : Q y -> all (fun p : A * B => Q p.2) [seq (x, y) | x <- zs].
      { by move=> H; elim: zs => //= z zs ->; rewrite H. }
      case: xs ys => [|x [|x' xs]] [|y [|y' ys]] // [<-] // H; try by [].
      + exact: (H1 x [:: y, y' & ys]).
      + apply: (H2 y [:: x, x' & xs]). by move: H => /= /andP[].
  Qed.

  Lemma ll_general (rs : seq vec) (Ss : seq mat) ms (c : R) : c <> 0 -> size (means_or0 rs ms) = size rs -> all (fun S => S \in unitmx) Ss ->
    log_likelihood rs Ss ms c =
    do ps <- broadcast (zip rs (means_or0 rs ms)) Ss;
    Ok [seq omap (fun v : R => (v - INR n * ln (Rabs c))%re) (ll_formula p.1.1 p.1.2 p.2) | p <- ps].
  Proof.
    move=> Hc Hs Hu. rewrite /log_likelihood -/(means_or0 rs ms) Hs eqxx /= all_map.
    rewrite (eq_all (a2 := fun S => S \in unitmx)); last by move=> S /=; rewrite unit_scale //; apply: pow2_ne.
    rewrite Hu zip_map_scale broadcast_map. set xs := zip rs _.
    case E: (broadcast xs Ss) => [l|e] //=. rewrite -map_comp; congr Ok.
    move: (broadcast_all E Hu). elim: l {E} => [//|p l IH] /= /andP[Hp Hl]. by rewrite -ll_scale // IH.
  Qed.

  Lemma unit_all_scale c (Ss : seq mat) : c <> 0 -> all (fun S : mat => S \in unitmx) [seq (c ^ 2)%re *: S | S <- Ss] = all (fun S => S \in unitmx) Ss.
  Proof. move=> Hc. rewrite all_map. apply: eq_all => S /=. rewrite unit_scale //. exact: pow2_ne. Qed.
  Lemma ll_singular (rs : seq vec) (Ss : seq mat) ms (c : R) : size (means_or0 rs ms) = size rs -> (exists2 S, S \in Ss & S \notin unitmx) ->
    log_likelihood rs Ss ms c = Raise LinAlgError.
  Proof.
    move=> Hs [S HS HnS]. rewrite /log_likelihood -/(means_or0 rs ms) Hs eqxx. cbn [negb]. case: ifP => // /allP H.
    have := H _ (map_f _ HS). case: (eqVneq ((c ^ 2)%re : R) 0) => [->|Hc]; last by rewrite unitmxZ ?unitfE // (negbTE HnS).
    case: (posnP n) => Hn; first by move: HnS; rewrite (unit_dim0 S Hn).
    by rewrite scale0r zero_not_unit.
  Qed.
  Lemma ll_zero_scale (rs : seq vec) (Ss : seq mat) ms : size (means_or0 rs ms) = size rs -> (0 < n)%N -> Ss <> [::] ->
    log_likelihood rs Ss ms 0 = Raise LinAlgError.
  Proof.
    move=> Hs Hn HSs. rewrite /log_likelihood -/(means_or0 rs ms) Hs eqxx /=. case: Ss HSs => [//|S Ss] _ /=.
    have ->: (0 * (0 * 1))%re = 0 by toR; eqR; ring. rewrite scale0r.
    by rewrite zero_not_unit.
  Qed.

  (** mapM over a list on which f always succeeds. *)
  Lemma mapM_ok (A B : Type) (f : A -> res B) (g : A -> B) (l : seq A) : (forall a, List.In a l -> f a = Ok (g a)) -> mapM f l = Ok (map g l).
  Proof. elim: l => [//|a l IH] H /=. by rewrite H /=; [rewrite IH //= => b Hb; apply: H; right|left]. Qed.
  Lemma ll_single (rs : seq vec) (Ss : seq mat) (ms : seq vec) : size ms = size rs -> size Ss = size rs ->
    log_likelihood rs Ss (Some ms) 1 = mapM (fun p : vec * vec * mat => single_log_likelihood p.1.1 p.2 p.1.2) (zip (zip rs ms) Ss).
  Proof.
    move=> Hm HS. rewrite /log_likelihood Hm eqxx /=. have ->: (1 * (1 * 1))%re = 1 by toR; eqR; ring.
    rewrite -[in zip [seq _ | r <- rs] _](@eq_map _ _ id); last by move=> r; rewrite scale1r.
    rewrite -[in zip _ [seq _ | m <- ms]](@eq_map _ _ id); last by move=> r; rewrite scale1r.
    rewrite -[[seq 1 *: S | S <- Ss]](@eq_map _ _ id); last by move=> r; rewrite scale1r. rewrite !map_id.
    rewrite /broadcast size_zip Hm minnn HS eqxx /=.
    elim: rs ms Ss Hm HS => [|r rs IH] [|m ms] [|S Ss] //= [Hm] [HS]. rewrite {1}/single_log_likelihood.
    case: (S \in unitmx) => //=. rewrite -IH //. by case: ifP.
  Qed.

  Lemma ll_seq_none (rs : seq vec) (Ss : seq mat) ms c v : log_likelihood_sequential rs Ss ms c = Ok v -> v = tt.
  Proof. by case: v. Qed.
  Lemma ll_seq_runs (rs : seq vec) (Ss : seq mat) ms (c : R) : size (means_or0 rs ms) = size rs -> size Ss = size rs -> c <> 0 ->
    all (fun S => S \in unitmx) Ss -> log_likelihood_sequential rs Ss ms c = Ok tt.
  Proof.
    move=> Hm HS Hc Hu. rewrite /log_likelihood_sequential -/(means_or0 rs ms) Hm eqxx /=.
    have: exists l, ll_seq_loop (zip [seq c *: r | r <- rs] [seq c *: m | m <- means_or0 rs ms]) [seq (c ^ 2)%re *: S | S <- Ss] = Ok l.
    { move: (means_or0 _ _) Hm => l Hm. elim: rs l Ss Hm HS Hu => [|r rs IH] [|m l] [|S Ss] //=; first by eexists.
      move=> [Hm] [HS] /andP[HSu Hu]. rewrite unit_scale; last exact: (pow2_ne Hc). rewrite HSu.
      have [x Hx] := IH _ _ Hm HS Hu. rewrite -/(pow c 2) in Hx *. rewrite Hx /=. by eexists. }
    by move=> [l ->].
  Qed.

  (** ** Frames *)
  Lemma shift_get (ts : seq Z) (rows : seq nrow) k : List.NoDup ts -> size ts = size rows -> (k < size ts)%N ->
    dict_get Z.eqb (shift_up n (zip ts rows)) (nth Z0 ts k) = Some (next_row n rows k).
  Proof.
    move=> Hnd Hs Hk. rewrite /shift_up.
    have ->: map fst (zip ts rows) = ts by rewrite -/unzip1 unzip1_zip // Hs.
    have ->: map snd (zip ts rows) = rows by rewrite -/unzip2 unzip2_zip // Hs.
    have Hsz: size (rcons (behead rows) (nseq n None)) = size ts.
    { rewrite size_rcons size_behead Hs. case: (rows) Hs Hk => [/= ->|] //. }
    have ->: next_row n rows k = nth (nseq n None) (rcons (behead rows) (nseq n None)) k.
    { rewrite /next_row nth_rcons nth_behead size_behead. case: ltnP => // H. rewrite nth_default; last by case: (rows) H.
      by case: ifP. }
    move: (rcons _ _) Hsz => u Hsz. elim: ts u k Hnd {Hs} Hk Hsz => [//|t ts IH] [|x u] [|k] //= /List.NoDup_cons_iff [Hnin Hnd] Hk [Hsz].
    - by rewrite Z.eqb_refl.
    - case: Z.eqb_spec => [E|_]; last exact: IH. case: Hnin. rewrite -E. rewrite ltnS in Hk.
      elim: ts k Hk {IH Hnd Hsz E} => [//|a ts IH] [|k] //= Hk; first by left. by right; apply: IH.
  Qed.

  Lemma frame_loop_ok (ts : seq Z) (rows : seq nrow) (ms : option (list (Z * vec))) (mean : nat -> vec) (items : seq (nat * mat)) :
    List.NoDup ts -> size ts = size rows -> (0 < n)%N -> all (fun x : nrow => size x == n) rows ->
    (forall q, List.In q items -> (q.1 < size ts)%N /\ q.2 \in unitmx) ->
    (forall k, (k < size ts)%N -> if ms is Some d then dict_get Z.eqb d (nth Z0 ts k) = Some (mean k) else mean k = 0) ->
    ll_frame_loop (shift_up n (zip ts rows)) ms [seq (nth Z0 ts q.1, q.2) | q <- items] =
    Ok [seq (nth Z0 ts q.1, obind (fun r => ll_formula r (mean q.1) q.2) (nvec n (next_row n rows q.1)))
       | q <- items & nth None (next_row n rows q.1) 0 != None].
  Proof.
    move=> Hnd Hs Hn Hr Hit Hms. elim: items Hit => [//|[k S] items IH] Hit.
    have [/= Hk Hu] := Hit (k, S) (or_introl erefl). rewrite /= shift_get //=.
    have Hrow: size (next_row n rows k) = n.
    { rewrite /next_row. case: (ltnP k.+1 (size rows)) => H; last by rewrite nth_default // size_nseq.
      by apply/eqP; exact: (all_nthP (nseq n None) Hr). }
    have IH' := IH (fun q H => Hit q (or_intror H)).
    have ->: pyget (next_row n rows k) 0 = Ok (nth None (next_row n rows k) 0).
    { case: (next_row n rows k) Hrow => [/= E|a l _ //]; first by move: Hn; rewrite -E. }
    rewrite /=. case Ef: (nth None (next_row n rows k) 0) => [f|] //=.
    have E: (match ms with Some d => or_raise (dict_get Z.eqb d (nth Z0 ts k)) KeyError | None => Ok 0 end) = Ok (mean k).
    { have := Hms _ Hk. by case: (ms) => [d ->|->]. }
    rewrite E /= Hu /= IH' //.
  Qed.
End LL.
