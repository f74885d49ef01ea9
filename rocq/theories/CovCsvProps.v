(** * The csv round trip. *)
From Coq Require Import String List Bool ZArith Arith Lia Reals Lra Psatz.
From Flocq Require Import Core BinarySingleNaN.
From Verif Require Import Num Py ListFacts Ieee CovCsv SpecCsv.
Import ListNotations.

(** ** the side of the matrix *)
Section Side.
  Local Open Scope R_scope.
  Notation fx := (SpecFloat.fexp 53 1024).
  Lemma fx_flt m e : (Z.abs m < 2 ^ 53)%Z -> (-1074 <= e)%Z -> generic_format radix2 fx (F2R (Float radix2 m e)).
  Proof.
    intros H1 H2. change fx with (FLT_exp (-1074) 53). apply generic_format_FLT. exists (Float radix2 m e); [reflexivity|exact H1|exact H2].
  Qed.
  Lemma b64_of_Z_val z : (Z.abs z < 2 ^ 53)%Z -> B2R (b64_of_Z z) = IZR z.
  Proof.
    intros H. unfold b64_of_Z. generalize (binary_normalize_correct 53 1024 prec53 emax1024 mode_NE z 0 false). cbv zeta.
    assert (E : F2R (Float radix2 z 0) = IZR z) by (unfold F2R; simpl; ring). rewrite round_generic; [|apply valid_rnd_round_mode|apply fx_flt; [exact H|lia]].
    rewrite E. rewrite Rlt_bool_true.
    - intros (A & _). exact A.
    - rewrite <- abs_IZR. apply Rlt_trans with (bpow radix2 53); [change (bpow radix2 53) with (IZR (2 ^ 53)); apply IZR_lt; exact H|apply bpow_lt; lia].
  Qed.
  Lemma side_tri n : (Z.of_nat (n * (n + 1)) < 2 ^ 53)%Z -> side_of (n * (n + 1) / 2) = n.
  Proof.
    intros H. unfold side_of. assert (E2 : (2 * (n * (n + 1) / 2))%nat = (n * (n + 1))%nat).
    { assert (D : Nat.divide 2 (n * (n + 1))). { destruct (Nat.Even_or_Odd n) as [[k ->]|[k ->]]; [exists (k * (2 * k + 1))%nat|exists ((2 * k + 1) * (k + 1))%nat]; lia. }
      destruct D as [k D]. rewrite D. rewrite Nat.div_mul by lia. lia. }
    replace (2 * Z.of_nat (n * (n + 1) / 2))%Z with (Z.of_nat (n * (n + 1))) by lia. set (N := Z.of_nat (n * (n + 1))) in *. set (z := Z.of_nat n).
    assert (Ez : N = (z * z + z)%Z) by (unfold N, z; rewrite Nat2Z.inj_mul, Nat2Z.inj_add; change (Z.of_nat 1) with 1%Z; ring). assert (Z0 : (0 <= z)%Z) by (unfold z; lia).
    assert (ZB : (z < 2 ^ 51)%Z) by (assert (z * z < 2 ^ 53)%Z by lia; apply Z.nle_gt; intros Q; assert (2 ^ 51 * 2 ^ 51 <= z * z)%Z by (apply Z.mul_le_mono_nonneg; lia); lia).
    assert (V := b64_of_Z_val N ltac:(lia)). destruct (Bsqrt_correct 53 1024 prec53 emax1024 mode_NE (b64_of_Z N)) as (S1 & _). rewrite V in S1. fold (fsqrt (b64_of_Z N)) in S1.
    assert (T := Btrunc_correct 53 1024 emax1024 (fsqrt (b64_of_Z N))). rewrite S1 in T. set (s := sqrt (IZR N)) in *.
    assert (L1 : IZR z <= s). { rewrite <- (sqrt_square (IZR z)) by (apply IZR_le; exact Z0). apply sqrt_le_1_alt. rewrite <- mult_IZR. apply IZR_le. lia. }
    assert (L2 : s <= IZR z + / 2). { assert (0 <= IZR z) by (apply IZR_le; exact Z0). rewrite <- (sqrt_square (IZR z + / 2)) by lra. apply sqrt_le_1_alt. rewrite Ez, plus_IZR, mult_IZR. nra. }
    set (r := round radix2 fx (round_mode mode_NE) s) in *.
    assert (R1 : IZR z <= r).
    { unfold r. assert (E : F2R (Float radix2 z 0) = IZR z) by (unfold F2R; simpl; ring). rewrite <- E in L1 |- *. apply round_ge_generic; [apply fexp_correct; reflexivity|apply valid_rnd_round_mode|apply fx_flt; lia|exact L1]. }
    assert (R2 : r <= IZR z + / 2).
    { unfold r. assert (E : F2R (Float radix2 (2 * z + 1) (-1)) = IZR z + / 2) by (unfold F2R, Defs.Fnum, Defs.Fexp; rewrite plus_IZR, mult_IZR; change (bpow radix2 (-1)) with (/ 2); field).
      rewrite <- E in L2 |- *. apply round_le_generic; [apply fexp_correct; reflexivity|apply valid_rnd_round_mode|apply fx_flt; lia|exact L2]. }
    assert (FT : Ztrunc r = z). { rewrite Ztrunc_floor by (eapply Rle_trans; [|exact R1]; apply IZR_le; exact Z0). apply Zfloor_imp. rewrite plus_IZR. lra. }
    assert (ET : IZR (Btrunc (fsqrt (b64_of_Z N))) = IZR z).
    { rewrite T. unfold round, F2R, scaled_mantissa, cexp, FIX_exp. simpl. rewrite !Rmult_1_r. rewrite FT. reflexivity. }
    apply eq_IZR in ET. rewrite ET. unfold z. apply Nat2Z.id.
  Qed.
End Side.

(** ** the index arrays *)
Lemma in_triu n i j : In (i, j) (triu_pairs n) <-> (i <= j < n)%nat.
Proof.
  unfold triu_pairs. rewrite in_flat_map. split.
  - intros (i' & H1 & H2). apply in_map_iff in H2. destruct H2 as (j' & E & H2). apply in_seq in H1. apply in_seq in H2. inversion E; subst. lia.
  - intros H. exists i. split; [apply in_seq; lia|]. apply in_map_iff. exists j. split; [reflexivity|]. apply in_seq. lia.
Qed.
Lemma triu_length n : length (triu_pairs n) = (n * (n + 1) / 2)%nat.
Proof.
  assert (G : forall k a, (a + k = n)%nat -> length (flat_map (fun i => map (fun j => (i, j)) (seq i (n - i))) (seq a k)) * 2 = k * (k + 1)).
  { induction k as [|k IH]; intros a Ha; [reflexivity|]. cbn [seq flat_map]. rewrite app_length, map_length, seq_length. assert (E := IH (S a) ltac:(lia)). lia. }
  assert (E := G n 0%nat ltac:(lia)). fold (triu_pairs n) in E. apply Nat.div_unique_exact; lia.
Qed.

(** ** matrices as tables *)
Section Tab.
  Context {N : Num}.
  Definition table (n : nat) (f : nat -> nat -> num) : list (list num) := map (fun i => map (f i) (seq 0 n)) (seq 0 n).
  Lemma set_nth_seq {B} (g : nat -> B) k a i u : (i < k)%nat -> set_nth (map g (seq a k)) i u = map (fun x => if (x =? a + i)%nat then u (g x) else g x) (seq a k).
  Proof.
    revert a i. induction k as [|k IH]; intros a i Hi; [lia|]. cbn [seq map]. destruct i as [|i]; cbn [set_nth].
    - rewrite Nat.add_0_r, Nat.eqb_refl. f_equal. apply map_ext_in. intros x Hx. apply in_seq in Hx. destruct (Nat.eqb_spec x a); [lia|reflexivity].
    - destruct (Nat.eqb_spec a (a + S i)); [lia|]. f_equal. rewrite IH by lia. apply map_ext. intros x. replace (S a + i)%nat with (a + S i)%nat by lia. reflexivity.
  Qed.
  Lemma put_table n f i j v : (i < n)%nat -> (j < n)%nat -> put (table n f) i j v = table n (fun a b => if (a =? i)%nat && (b =? j)%nat then v else f a b).
  Proof.
    intros Hi Hj. unfold put, table. rewrite set_nth_seq by exact Hi. apply map_ext. intros a. rewrite Nat.add_0_l. destruct (Nat.eqb_spec a i); cbn [andb]; [|reflexivity].
    rewrite set_nth_seq by exact Hj. apply map_ext. intros b. rewrite Nat.add_0_l. reflexivity.
  Qed.
  Definition pin (e : nat * nat) (l : list (nat * nat)) : bool := existsb (fun e' => (fst e' =? fst e)%nat && (snd e' =? snd e)%nat) l.
  Lemma pin_In e l : pin e l = true <-> In e l.
  Proof.
    unfold pin. rewrite existsb_exists. split.
    - intros (e' & H & E). apply andb_true_iff in E. destruct E as [E1 E2]. apply Nat.eqb_eq in E1. apply Nat.eqb_eq in E2. destruct e, e'; cbn in *; subst. exact H.
    - intros H. exists e. rewrite !Nat.eqb_refl. auto.
  Qed.
  Lemma assign_table n ix : forall f h, (forall e, In e ix -> (fst e < n)%nat /\ (snd e < n)%nat) ->
    assign (table n f) ix (map h ix) = table n (fun a b => if pin (a, b) ix then h (a, b) else f a b).
  Proof.
    induction ix as [|e ix IH]; intros f h H; [reflexivity|]. unfold assign. cbn [map combine fold_left fst snd]. destruct (H e (or_introl eq_refl)) as [H1 H2]. rewrite put_table by assumption.
    fold (assign (table n (fun a b => if (a =? fst e)%nat && (b =? snd e)%nat then h e else f a b)) ix (map h ix)). rewrite IH by (intros; apply H; right; assumption).
    unfold table. apply map_ext. intros a. apply map_ext. intros b. unfold pin. cbn [existsb fst snd]. rewrite (Nat.eqb_sym (fst e) a), (Nat.eqb_sym (snd e) b).
    destruct (Nat.eqb_spec a (fst e)) as [Ea|Ea], (Nat.eqb_spec b (snd e)) as [Eb|Eb]; cbn [andb orb]; try reflexivity. destruct e as [e1 e2]; cbn in Ea, Eb; subst. destruct (existsb _ ix); reflexivity.
  Qed.
  Lemma repeat_table n : repeat (repeat n0 n) n = table n (fun _ _ => n0).
  Proof.
    assert (G : forall (A : Type) (x : A) k a, repeat x k = map (fun _ : nat => x) (seq a k)) by (intros A x; induction k as [|k IH]; intros a; [reflexivity|cbn; f_equal; apply IH]).
    unfold table. rewrite (G _ _ n 0%nat) . apply map_ext. intros _. apply G.
  Qed.
  Lemma full_triu n (h : nat * nat -> num) : (Z.of_nat (n * (n + 1)) < 2 ^ 53)%Z ->
    from_upper_triangular_to_full (map h (triu_pairs n)) = Ok (table n (fun a b => h (Nat.min a b, Nat.max a b))).
  Proof.
    intros Hn. unfold from_upper_triangular_to_full. rewrite map_length, triu_length, side_tri by exact Hn. rewrite triu_length, Nat.eqb_refl. f_equal. rewrite repeat_table.
    assert (R : forall e, In e (triu_pairs n) -> (fst e < n)%nat /\ (snd e < n)%nat) by (intros [i j] H; apply in_triu in H; cbn; lia).
    rewrite assign_table by exact R.
    replace (map h (triu_pairs n)) with (map (fun e => h (snd e, fst e)) (map (fun ij => (snd ij, fst ij)) (triu_pairs n))) by (rewrite map_map; apply map_ext; intros [i j]; reflexivity).
    rewrite assign_table by (intros e He; apply in_map_iff in He; destruct He as (e' & <- & He); destruct (R e' He); cbn; auto).
    unfold table. apply map_ext_in. intros a Ha. apply map_ext_in. intros b Hb. apply in_seq in Ha. apply in_seq in Hb. cbn [fst snd].
    assert (P1 : forall x y, pin (x, y) (triu_pairs n) = true <-> (x <= y < n)%nat) by (intros; rewrite pin_In; apply in_triu).
    assert (P2 : pin (a, b) (map (fun ij => (snd ij, fst ij)) (triu_pairs n)) = true <-> (b <= a < n)%nat).
    { rewrite pin_In, in_map_iff, <- in_triu. split; [intros ([x y] & E & H); cbn in E; inversion E; subst; exact H|intros H; exists (b, a); auto]. }
    destruct (le_lt_dec b a) as [L|L].
    - destruct (pin (a, b) (map _ _)) eqn:E; [|exfalso; assert (X := proj2 P2 ltac:(lia)); congruence]. rewrite Nat.min_r, Nat.max_l by lia. reflexivity.
    - destruct (pin (a, b) (map _ _)) eqn:E; [exfalso; assert (X := proj1 P2 eq_refl); lia|]. rewrite (proj2 (P1 a b)) by lia. rewrite Nat.min_l, Nat.max_r by lia. reflexivity.
  Qed.
End Tab.

(** ** the theorems *)
Theorem csv_round_trip {N : Num} (rt : num -> num) covs assets n : (Z.of_nat (n * (n + 1)) < 2 ^ 53)%Z -> length assets = n -> Forall (fun c => square n (snd c)) covs ->
  (do file <- save_cov_to_csv covs; from_csv_to_cov rt file assets) =
  Ok (map (fun c => (fst c, mkFrame assets assets (map (fun i => map (fun j => rt (cell (snd c) (Nat.min i j) (Nat.max i j))) (seq 0 n)) (seq 0 n)))) covs).
Proof.
  intros Hn Ha Hc. unfold save_cov_to_csv.
  assert (E0 : match covs with [] => 0%nat | c :: _ => length (fvals (snd c)) end = n \/ covs = []) by (destruct covs; [right; reflexivity|left; inversion Hc; subst; apply H1]).
  rewrite (proj2 (forallb_forall _ _)).
  - cbn [bind]. unfold from_csv_to_cov. clear E0. induction covs as [|[t c] covs IH]; [reflexivity|]. inversion Hc as [|? ? [S1 S2] Hc']; subst. cbn [map mapM fst snd].
    assert (F : from_upper_triangular_to_full (map rt (upper_part (fvals c))) = Ok (table (length assets) (fun a b => rt (cell c (Nat.min a b) (Nat.max a b))))).
    { unfold upper_part. cbn in S1. rewrite S1, map_map. apply (full_triu (length assets) (fun ij => rt (nth (snd ij) (nth (fst ij) (fvals c) []) nnan))). exact Hn. }
    rewrite F. cbn [bind]. replace (length (table (length assets) (fun a b => rt (cell c (Nat.min a b) (Nat.max a b))))) with (length assets) by (unfold table; rewrite map_length, seq_length; reflexivity).
    rewrite Nat.eqb_refl. cbn [bind]. rewrite (IH Hc'). reflexivity.
  - intros c Hin. destruct E0 as [->| ->]; [|destruct Hin]. rewrite Forall_forall in Hc. destruct (Hc c Hin) as [S1 S2]. rewrite S1, Nat.eqb_refl. cbn [andb]. apply forallb_forall. intros r Hr.
    rewrite Forall_forall in S2. apply Nat.eqb_eq, S2, Hr.
Qed.
Theorem csv_symmetric {N : Num} covs assets n : (Z.of_nat (n * (n + 1)) < 2 ^ 53)%Z -> length assets = n -> Forall (fun c => square n (snd c)) covs ->
  Forall (fun c => forall i j, (i < n)%nat -> (j < n)%nat -> cell (snd c) i j = cell (snd c) j i) covs ->
  (do file <- save_cov_to_csv covs; from_csv_to_cov (fun x => x) file assets) = Ok (map (fun c => (fst c, mkFrame assets assets (fvals (snd c)))) covs).
Proof.
  intros Hn Ha Hc Hs. rewrite (csv_round_trip _ covs assets n Hn Ha Hc). f_equal. apply map_ext_in. intros [t c] Hin. cbn [fst snd]. do 2 f_equal.
  rewrite Forall_forall in Hc, Hs. destruct (Hc _ Hin) as [S1 S2]. assert (SS := Hs _ Hin). cbn [fst snd] in *.
  apply (list_eq_nth []); [rewrite map_length, seq_length; auto|]. intros i Hi. rewrite map_length, seq_length in Hi. rewrite (nth_map_lt _ _ _ 0%nat) by (rewrite seq_length; exact Hi). rewrite seq_nth by exact Hi. cbn [plus].
  assert (LR : length (nth i (fvals c) []) = n) by (rewrite Forall_forall in S2; apply S2, nth_In; lia).
  apply (list_eq_nth nnan); [rewrite map_length, seq_length; auto|]. intros j Hj. rewrite map_length, seq_length in Hj. rewrite (nth_map_lt _ _ _ 0%nat) by (rewrite seq_length; exact Hj). rewrite seq_nth by exact Hj. cbn [plus].
  destruct (le_lt_dec i j); [rewrite Nat.min_l, Nat.max_r by lia; reflexivity|]. rewrite Nat.min_r, Nat.max_l by lia. rewrite SS by lia. reflexivity.
Qed.
Theorem csv_bad_length {N : Num} (v : list num) : (forall n, length v <> n * (n + 1) / 2)%nat -> from_upper_triangular_to_full v = Raise ValueError.
Proof. intros H. unfold from_upper_triangular_to_full. rewrite triu_length. destruct (Nat.eqb_spec (length v) (side_of (length v) * (side_of (length v) + 1) / 2)) as [E|_]; [exfalso; exact (H _ E)|reflexivity]. Qed.
Theorem csv_bad_labels {N : Num} (rt : num -> num) covs assets n : (Z.of_nat (n * (n + 1)) < 2 ^ 53)%Z -> length assets <> n -> covs <> [] -> Forall (fun c => square n (snd c)) covs ->
  (do file <- save_cov_to_csv covs; from_csv_to_cov rt file assets) = Raise ValueError.
Proof.
  intros Hn Ha Hne Hc. unfold save_cov_to_csv. destruct covs as [|[t c] covs]; [congruence|]. inversion Hc as [|? ? [S1 S2] Hc']; subst x l. cbn [snd] in *.
  rewrite (proj2 (forallb_forall _ _)).
  - cbn [bind map fst snd]. unfold from_csv_to_cov. cbn [mapM fst snd]. unfold upper_part. rewrite S1, map_map.
    rewrite (full_triu n (fun ij => rt (nth (snd ij) (nth (fst ij) (fvals c) []) nnan))) by exact Hn. cbn [bind]. unfold table. rewrite map_length, seq_length. destruct (Nat.eqb_spec (length assets) n); [congruence|]. reflexivity.
  - intros c' Hin. rewrite S1. rewrite Forall_forall in Hc. destruct (Hc c' Hin) as [S1' S2']. rewrite S1', Nat.eqb_refl. cbn [andb]. apply forallb_forall. intros r Hr.
    rewrite Forall_forall in S2'. apply Nat.eqb_eq, S2', Hr.
Qed.

(** ** a concrete case *)
Definition cs_c1 : frame (N := XR) string := mkFrame ["A"; "B"]%string ["A"; "B"]%string [[Fin 4; Fin 1]; [Fin 1; Fin 9]].
Definition cs_c2 : frame (N := XR) string := mkFrame ["A"; "B"]%string ["A"; "B"]%string [[Fin 5; NaN]; [NaN; Fin 2]].
Lemma cs_case : (Z.of_nat (2 * (2 + 1)) < 2 ^ 53)%Z /\ Forall (fun c : time * frame string => square (N := XR) 2 (snd c)) [(1%Z, cs_c1); (7%Z, cs_c2)] /\
  Forall (fun c : time * frame string => forall i j, (i < 2)%nat -> (j < 2)%nat -> cell (N := XR) (snd c) i j = cell (snd c) j i) [(1%Z, cs_c1); (7%Z, cs_c2)].
Proof.
  split; [reflexivity|]. split.
  - repeat constructor.
  - constructor; [|constructor; [|constructor]]; intros [|[|i]] [|[|j]] Hi Hj; try lia; reflexivity.
Qed.
Lemma cs_len : forall n, (length [Fin 1; Fin 2] <> n * (n + 1) / 2)%nat.
Proof.
  intros n. change (length [Fin 1; Fin 2]) with 2%nat. destruct n as [|[|n]]; [discriminate|discriminate|]. intros E.
  assert (Q : (S (S n) * (S (S n) + 1) >= 6)%nat) by nia. assert (R := Nat.div_le_mono 6 (S (S n) * (S (S n) + 1)) 2 ltac:(lia) Q). change (6 / 2)%nat with 3%nat in R. lia.
Qed.
