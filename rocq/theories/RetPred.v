(** * The predictors of return_combination.py. *)
From Coq Require Import Reals Lra ZArith String List Lia.
Set Warnings "-notation-overridden,-ambiguous-paths".
From mathcomp Require Import all_ssreflect all_algebra.
From Verif Require Import RStruct MatR Num Py ListFacts Spec Combination CombPerm CombFacts Trader TraderOpt TraderBt TraderMain BacktestProps RetComb SpecRet RetEwm RetFit RetMain.
Set Implicit Arguments.
Unset Strict Implicit.
Unset Printing Implicit Defensive.
Import GRing.Theory.
Local Open Scope ring_scope.
Delimit Scope R_scope with re.
Delimit Scope Z_scope with z.

Lemma mulE (a b : R) : GRing.mul a b = Rmult a b.
Proof. by []. Qed.
Lemma RltbT x y : (x < y)%re -> Rltb x y = true.
Proof. by rewrite /Rltb; case: Rlt_dec. Qed.
Lemma RltbF x y : (y <= x)%re -> Rltb x y = false.
Proof. move=> H. rewrite /Rltb. case: Rlt_dec => // H'. exfalso. lra. Qed.
Lemma nodup_test idx : List.NoDup idx -> all (fun i => ~~ mem_Z (nth Z0 idx i) (drop i.+1 idx)) (iota 0 (size idx)).
Proof.
  move=> H. apply/allP => i. rewrite mem_iota add0n => /= Hi. apply/negP => /mem_ZP /(In_nthP Z0) [j]. rewrite size_drop nth_drop => Hj E.
  have Hij : (i.+1 + j < size idx)%N by lia. move/(List.NoDup_nth _ Z0): H => H. have := H i (i.+1 + j)%N. rewrite !nthE.
  have -> : List.length idx = size idx by []. move=> /(_ (ltP Hi) (ltP Hij) E). lia.
Qed.
Lemma reindex_id idx (l : seq (option R)) idx' : List.NoDup idx -> size l = size idx -> (forall t, List.In t idx' -> List.In t idx) ->
  reindex (dropna_series (zip idx l)) idx' = [seq (if dict_get Z.eqb (zip idx l) t is Some v then v else None) | t <- idx'].
Proof.
  move=> Hn Hs _. apply: eq_map => t. elim: idx l Hn Hs => [|u idx IH] [|v l] //= H [] Hs. inversion H as [|? ? Hu Hnd]; subst.
  rewrite /dropna_series /=. case: v => [v|] /=.
  - case: Z.eqb_spec => // _. exact: IH.
  - case: Z.eqb_spec => [E|_]; last exact: IH. subst u. have -> // : dict_get Z.eqb (filter (fun p : Z * option R => isSome p.2) (zip idx l)) t = None.
    case E : (dict_get _ _ _) => [x|//]. exfalso. apply: Hu. have : List.In (t, x) (filter (fun p : Z * option R => isSome p.2) (zip idx l)).
      elim: (filter _ _) E => //= [[k v] r] IH2 /=. by case: Z.eqb_spec => [-> [] ->|_ /IH2]; [left|right].
    move=> /In_filter [/(List.in_map fst) /= Hin _]. change (List.In t (unzip1 (zip idx l))) in Hin. by rewrite unzip1_zip // Hs in Hin.
Qed.
Lemma get_nth A (idx : seq Z) (l : seq A) d i : List.NoDup idx -> size l = size idx -> (i < size idx)%N -> dict_get Z.eqb (zip idx l) (nth Z0 idx i) = Some (nth d l i).
Proof.
  move=> Hn Hs Hi. have Hz : (i < size (zip idx l))%N by rewrite size_zip Hs minnn.
  have := @dict_get_In _ (zip idx l) (nth (Z0, d) (zip idx l) i). rewrite nth_zip // => -> //.
  - by rewrite -/unzip1 unzip1_zip ?Hs.
  - rewrite -nth_zip //. apply/(In_nthP (Z0, d)). by exists i.
Qed.
Lemma reindex_drop idx (l : seq (option R)) n : List.NoDup idx -> size l = size idx -> reindex (dropna_series (zip idx l)) (drop n idx) = drop n l.
Proof.
  move=> Hn Hs. rewrite reindex_id //; last by move=> t /(In_nthP Z0) [j]; rewrite size_drop nth_drop => Hj ->; apply: In_nth_size; lia.
  apply: (@eq_from_nth _ None); first by rewrite size_map !size_drop Hs. rewrite size_map size_drop => i Hi. rewrite (nth_map Z0) ?size_drop // !nth_drop.
  rewrite (get_nth None) //. lia.
Qed.
Lemma dict_set_new V (d : seq (R * V)) k v : ~ List.In k (map fst d) -> dict_set Reqb d k v = d ++ [:: (k, v)].
Proof.
  elim: d => [//|[k' v'] d IH] H /=. case Ek : (Reqb k k'). { exfalso. apply: H. left. move: Ek. rewrite /Reqb. by case: Req_EM_T. } rewrite IH // => H'. apply: H. by right.
Qed.
Lemma dict_ofR V (l : seq (R * V)) : List.NoDup (map fst l) -> dict_of Reqb l = l.
Proof.
  rewrite /dict_of. have H : forall d, List.NoDup (map fst (d ++ l)) -> List.fold_left (fun d kv => dict_set Reqb d (fst kv) (snd kv)) l d = d ++ l.
  { elim: l => [|[k v] l IH] d H /=; first by rewrite cats0. rewrite dict_set_new; first by rewrite IH -catA.
    move: H. rewrite map_cat /= => H Hin. have := @List.NoDup_remove_2 _ _ _ _ H. apply. apply/List.in_or_app. by left. }
  exact: (H [::]).
Qed.
Lemma halflifeE h : halflife_factor h = half_decay h.
Proof. rewrite /halflife_factor /half_decay /Rpower. congr exp. rewrite /Rdiv. exact: Rmult_comm. Qed.
Lemma half_pos h : (0 < half_decay h)%re.
Proof. exact: exp_pos. Qed.
Lemma half_power n : (0 < n)%N -> half_decay (INR n) ^+ n = (/ 2)%re.
Proof.
  move=> Hn. rewrite /half_decay. have E k : Rpower (/ 2) (/ INR n) ^+ k = Rpower (/ 2) (INR k * / INR n).
  { elim: k => [|k IH]; first by rewrite expr0 /= Rmult_0_l Rpower_O //; lra. rewrite exprS IH. toR. rewrite -Rpower_plus. congr Rpower. rewrite S_INR. ring. }
  rewrite E Rinv_r; last by apply: not_0_INR; lia. rewrite Rpower_1 //. lra.
Qed.

Theorem ewma_value idx xs hs : List.NoDup idx -> size xs = size idx -> (forall h, List.In h hs -> (0 < h)%re) -> List.NoDup hs ->
  ewma_predictors idx xs hs = Ok (behead idx, [seq (h, [seq past_mean (half_decay h) (fun s => nth None xs s) t | t <- iota 1 (size idx).-1]) | h <- hs]).
Proof.
  move=> Hn Hs Hh Hnh. rewrite /ewma_predictors nodup_test //.
  set f := fun h : R => _. set g := fun h : R => (h, [seq past_mean (half_decay h) (fun s => nth None xs s) t | t <- iota 1 (size idx).-1]).
  have -> : mapM f hs = Ok (map g hs).
  { have E h : List.In h hs -> f h = Ok (g h).
    { move=> /Hh Hh0. rewrite /f RltbT //. congr Ok. rewrite /g. congr (_, _). rewrite -drop1 reindex_drop //; last by rewrite shift1_size ewm_size.
      apply: (@eq_from_nth _ None); first by rewrite size_drop shift1_size ewm_size Hs size_map size_iota subn1.
      rewrite size_drop shift1_size ewm_size Hs subn1 => i Hi. have Hi' : (i < size xs)%N by lia. rewrite nth_drop shift1_nth; last by rewrite ewm_size; lia.
      rewrite /= halflifeE (ewm_nth (half_pos h)) // (nth_map 0%N) ?size_iota // nth_iota //. }
    elim: hs E {Hh Hnh} => //= h l IH E. rewrite E; last by left. rewrite /= IH // => h' Hh'. apply: E. by right. }
  rewrite /=. congr (Ok (_, _)). apply: dict_ofR. have -> // : map fst (map g hs) = hs. rewrite -map_comp. exact: map_id.
Qed.

(** two series that agree before t *)
Lemma past_mean_ext a (x x' : nat -> option R) t : (forall s, (s < t)%N -> x s = x' s) -> past_mean a x t = past_mean a x' t.
Proof.
  move=> H. rewrite /past_mean. have -> : [exists s : 'I_t, isSome (x s)] = [exists s : 'I_t, isSome (x' s)] by apply: eq_existsb => s; rewrite H.
  have -> : seen_sum a x t = seen_sum a x' t by apply: eq_bigr => s _; rewrite H.
  have -> // : seen_weight a x t = seen_weight a x' t by apply: eq_bigr => s _; rewrite H.
Qed.
Lemma past_mean_range a (x : nat -> option R) t lo hi v : (0 < a)%re -> (forall s u, (s < t)%N -> x s = Some u -> (lo <= u <= hi)%re) -> past_mean a x t = Some v -> (lo <= v <= hi)%re.
Proof.
  move=> Ha H. rewrite /past_mean. case: ifP => // Hs [] <-. have Hp := seen_pos Ha Hs.
  have H1 : (lo * seen_weight a x t <= seen_sum a x t)%re.
  { rewrite /seen_weight /seen_sum. rewrite -mulE big_distrr /=. apply: sumR_le => s _. case E : (x s) => [u|]; last by rewrite mulr0; exact: Rle_refl.
    have [Hl _] := H s u (ltn_ord s) E. have := pow_pos Ha (t.-1 - s). move: (a ^+ _) => p Hp'. toR. nra. }
  have H2 : (seen_sum a x t <= hi * seen_weight a x t)%re.
  { rewrite /seen_weight /seen_sum. rewrite -mulE big_distrr /=. apply: sumR_le => s _. case E : (x s) => [u|]; last by rewrite mulr0; exact: Rle_refl.
    have [_ Hl] := H s u (ltn_ord s) E. have := pow_pos Ha (t.-1 - s). move: (a ^+ _) => p Hp'. toR. nra. }
  split.
  - apply: (Rmult_le_reg_r (seen_weight a x t)) => //. rewrite /Rdiv Rmult_assoc Rinv_l ?Rmult_1_r //. lra.
  - apply: (Rmult_le_reg_r (seen_weight a x t)) => //. rewrite /Rdiv Rmult_assoc Rinv_l ?Rmult_1_r //. lra.
Qed.
(** errors *)
Theorem ewma_error idx xs hs h : List.NoDup idx -> List.In h hs -> (h <= 0)%re -> ewma_predictors idx xs hs = Raise ValueError.
Proof.
  move=> Hn Hin Hh. rewrite /ewma_predictors nodup_test //. set f := fun h : R => _. have -> // : mapM f hs = Raise ValueError.
  elim: hs Hin => [//|h' l IH] /= [E|Hin].
  - subst h'. by rewrite {1}/f RltbF.
  - rewrite {1}/f. case: (Rltb 0 h') => //=. by rewrite IH.
Qed.

(** ** daily_predictors *)
Lemma shift_size lag (xs : seq (option R)) : size (shift_series lag xs) = size xs.
Proof.
  case: lag => [|p|p] /=; rewrite ?size_cat ?size_nseq ?size_drop ?size_take.
  - rewrite /= min0n subn0. by rewrite ltnn.
  - rewrite /minn. case: ltnP => H; case: ltnP => H2; lia.
  - rewrite /minn. case: ltnP => H; lia.
Qed.
Lemma shift_nth lag (xs : seq (option R)) t : (t < size xs)%N ->
  nth None (shift_series lag xs) t = let s := (Z.of_nat t - lag)%z in if Z.leb 0 s then nth None xs (Z.to_nat s) else None.
Proof.
  move=> Ht. case: lag => [|p|p] /=.
  - rewrite min0n subn0 take_size /= Z.sub_0_r Nat2Z.id. by case: Z.leb_spec => //; lia.
  - rewrite nth_cat size_nseq. case: ltnP => H.
    + rewrite nth_nseq H. case: Z.leb_spec => // H'. exfalso. move: H. rewrite leq_min => /andP [H _]. lia.
    + case: (leqP (size xs) (Pos.to_nat p)) => Hp; first by move: H; rewrite /minn; case: ltnP; lia.
      have Em : minn (Pos.to_nat p) (size xs) = Pos.to_nat p by rewrite /minn Hp. rewrite Em in H *. case: Z.leb_spec => H'; last lia.
      rewrite nth_take; last lia. congr nth. lia.
  - rewrite nth_cat size_drop nth_drop nth_nseq. have E : Z.leb 0 (Z.of_nat t + Z.pos p) = true by apply/Z.leb_le; lia. rewrite E.
    have E2 : Z.to_nat (Z.of_nat t + Z.pos p) = (Pos.to_nat p + t)%N by lia. rewrite E2. case: ltnP => // H. rewrite if_same nth_default //. lia.
Qed.
Theorem daily_value idx xs lags : List.NoDup idx -> size xs = size idx -> List.NoDup lags ->
  daily_predictors idx xs lags = Ok (idx, [seq (lag, [seq (let s := (Z.of_nat t - lag)%z in if Z.leb 0 s then nth None xs (Z.to_nat s) else None) | t <- iota 0 (size idx)]) | lag <- lags]).
Proof.
  move=> Hn Hs Hl. rewrite /daily_predictors nodup_test //. congr (Ok (_, _)). rewrite dict_of_nodup; last first.
  { change (List.NoDup (map fst [seq (lag, reindex (dropna_series (zip idx (shift_series lag xs))) idx) | lag <- lags])). rewrite -map_comp. set l := map _ _. have -> // : l = lags. exact: map_id. }
  apply: eq_map => lag. congr (_, _). have := @reindex_drop idx (shift_series lag xs) 0. rewrite !drop0 shift_size => -> //.
  apply: (@eq_from_nth _ None); first by rewrite shift_size size_map size_iota. rewrite shift_size => i Hi. rewrite (nth_map 0%N) ?size_iota -?Hs // nth_iota // add0n. exact: shift_nth.
Qed.

(** ** feature_engineer *)
Theorem feature_parts rows i j : (i < size rows)%N -> (j < size (nth [::] rows i))%N ->
  let row := nth [::] rows i in let out := nth [::] (feature_engineer rows) i in
  size out = (2 * size row)%N /\
  match nth None row j with
  | Some v => nth None out j = Some (Rmax v 0) /\ nth None out (size row + j) = Some (Rmin v 0)
  | None => nth None out j = None /\ nth None out (size row + j) = None
  end.
Proof.
  move=> Hi Hj. rewrite /=. rewrite /feature_engineer (nth_map [::]) //. set row := nth [::] rows i in Hj *.
  rewrite size_cat !size_map mul2n addnn. split=> //. rewrite !nth_cat !size_map Hj ltnNge leq_addr /= addKn !(nth_map None) //.
  case: (nth None row j) => [v|] //=. split.
  - case: (Rlt_le_dec v 0) => H; [rewrite RltbT // Rmax_right //|rewrite RltbF // Rmax_left //]; lra.
  - case: (Rlt_le_dec 0 v) => H; [rewrite RltbT // Rmin_right //|rewrite RltbF // Rmin_left //]; lra.
Qed.
