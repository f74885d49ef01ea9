(** * from_row_to_covariance: packing round trip. *)
From Coq Require Import Reals ZArith String List Lia.
Set Warnings "-notation-overridden,-ambiguous-paths".
From mathcomp Require Import all_ssreflect all_algebra.
From mathcomp.zify Require Import zify_ssreflect.
From Verif Require Import Py ExpUtils SpecExp.
Set Implicit Arguments.
Unset Strict Implicit.
Unset Printing Implicit Defensive.

Section Pack.
  Context {A : Type} (zero : A).
  Implicit Types (S : arr2 (A := A)) (row : seq A) (pos : seq (nat * nat)).

  Lemma assign_spec pos row : uniq pos -> size row = size pos -> forall S i j,
    foldl (fun S pv => aset S pv.1 pv.2) S (zip pos row) i j =
    if (i, j) \in pos then nth zero row (index (i, j) pos) else S i j.
  Proof.
    elim: pos row => [|p pos IH] [|v row] //= /andP[Hp Hu] [Hs] S i j.
    rewrite IH // in_cons /aset. case: (eqVneq (i, j) p) => [E|Hne].
    - move: Hp; rewrite -E => Hp. by rewrite (negbTE Hp) /= !eqxx.
    - have ->: (i == p.1) && (j == p.2) = false by case: p Hne {Hp} => a b /=; rewrite xpair_eqE => /negbTE.
      by [].
  Qed.

  Lemma mask_uniq n (mask : nat -> nat -> bool) : uniq (mask_pos n mask).
  Proof. apply: filter_uniq. apply: allpairs_uniq; try exact: iota_uniq. by move=> [a b] [c d]. Qed.
  Lemma mask_mem n (mask : nat -> nat -> bool) i j : ((i, j) \in mask_pos n mask) = [&& (i < n), (j < n) & mask i j].
  Proof.
    rewrite /mask_pos mem_filter /=. case H: (mask i j) => /=; rewrite ?andbT ?andbF //.
    apply/allpairsP/andP => [[[a b] /= [Ha Hb [-> ->]]]|[Hi Hj]]; first by move: Ha Hb; rewrite !mem_iota.
    by exists (i, j); rewrite !mem_iota.
  Qed.
  Lemma filter_iota i n : [seq j <- iota 0 n | i <= j] = iota i (n - i).
  Proof.
    elim: n => [|n IH]; first by rewrite sub0n.
    rewrite -addn1 iotaD filter_cat IH add0n /=. case: leqP => H.
    - by rewrite addn1 subSn // -addn1 iotaD subnKC.
    - rewrite cats0. have ->: n - i = 0 by lia. by have ->: n + 1 - i = 0 by lia.
  Qed.
  Lemma upper_pos n S : [seq S p.1 p.2 | p <- mask_pos n (fun i j => i <= j)] = upper_triangle n S.
  Proof.
    rewrite /mask_pos /upper_triangle.
    have H l: [seq S p.1 p.2 | p <- [seq p <- [seq (i, j) | i <- l, j <- iota 0 n] | p.1 <= p.2]] =
              flatten [seq [seq S i j | j <- iota i (n - i)] | i <- l].
    { elim: l => [//|i l IH]. rewrite allpairs_cons filter_cat map_cat IH /=. congr (_ ++ _).
      by rewrite filter_map -map_comp /= -filter_iota. }
    exact: H.
  Qed.
  Lemma upper_size n S : (size (upper_triangle n S)).*2 = n * n.+1.
  Proof.
    rewrite /upper_triangle size_flatten /shape -map_comp.
    rewrite (eq_map (f2 := fun i => n - i)); last by move=> i /=; rewrite size_map size_iota.
    elim: n => [//|n IH].
    have ->: sumn [seq n.+1 - i | i <- iota 0 n.+1] = n.+1 + sumn [seq n - i | i <- iota 0 n].
    { rewrite /= subn0 (iotaDl 1 0 n) -map_comp. congr (_ + _). }
    rewrite doubleD IH. lia.
  Qed.
  Lemma pos_size n : (size (mask_pos n (fun i j => i <= j))).*2 = n * n.+1.
  Proof. rewrite -(upper_size n (fun i j => zero)) -upper_pos size_map //. Qed.

  Definition mirror S : arr2 (A := A) := fun i j => if i <= j then S i j else S j i.

  Lemma second_half n S : exists S', mask_assign S (mask_pos n (fun i j => j <= i))
       [seq S p.2 p.1 | p <- mask_pos n (fun i j => j <= i)] = Ok S' /\
     forall i j, i < n -> j < n -> S' i j = mirror S i j.
  Proof.
    rewrite /mask_assign size_map eqxx. eexists; split; first by [].
    move=> i j Hi Hj. rewrite assign_spec ?mask_uniq ?size_map // mask_mem Hi Hj /= /mirror.
    case: (leqP j i) => H; last by rewrite (ltnW H).
    rewrite (nth_map (0, 0)); last by rewrite index_mem mask_mem Hi Hj.
    rewrite nth_index; last by rewrite mask_mem Hi Hj. rewrite /=.
    by case: (leqP i j) => // H2; have ->: i = j by lia.
  Qed.

  Lemma upper_ext n S S' : (forall i j, i < n -> j < n -> i <= j -> S i j = S' i j) -> upper_triangle n S = upper_triangle n S'.
  Proof.
    move=> H. rewrite -!upper_pos. apply/eq_in_map => -[i j]. rewrite mask_mem => /and3P[Hi Hj Hm] /=. exact: H.
  Qed.

  Lemma unpack_ok row n : (size row).*2 = n * n.+1 ->
    exists S, from_row_to_covariance zero row n = Ok S /\
      (forall i j, i < n -> j < n -> S i j = S j i) /\ upper_triangle n S = row.
  Proof.
    move=> Hs. rewrite /from_row_to_covariance {1}/mask_assign.
    have Hsz: size row = size (mask_pos n (fun i j => i <= j)) by apply: double_inj; rewrite Hs pos_size.
    rewrite Hsz eqxx /=. set S1 := foldl _ _ _.
    have [S' [-> HS']] := second_half n S1. exists S'; split=> //.
    have HS i j: i < n -> j < n -> i <= j -> S' i j = nth zero row (index (i, j) (mask_pos n (fun i j => i <= j))).
    { move=> Hi Hj Hij. by rewrite HS' // /mirror Hij /S1 assign_spec ?mask_uniq // mask_mem Hi Hj Hij. }
    split.
    - move=> i j Hi Hj. rewrite !HS' // /mirror. case: (leqP i j) => H; case: (leqP j i) => H' //; first by have ->: i = j by lia. lia.
    - rewrite (upper_ext HS) -upper_pos. apply: (@eq_from_nth _ zero); first by rewrite size_map.
      move=> k. rewrite size_map => Hk. rewrite (nth_map (0, 0)) //= -surjective_pairing index_uniq ?mask_uniq //.
  Qed.

  Lemma upper_inj n S S' : upper_triangle n S = upper_triangle n S' -> forall i j, i < n -> j < n -> i <= j -> S i j = S' i j.
  Proof.
    rewrite -!upper_pos => /eq_in_map H i j Hi Hj Hij. apply: (H (i, j)). by rewrite mask_mem Hi Hj.
  Qed.

  Lemma pack_unpack n (M : arr2 (A := A)) : (forall i j, i < n -> j < n -> M i j = M j i) ->
    exists S, from_row_to_covariance zero (upper_triangle n M) n = Ok S /\ forall i j, i < n -> j < n -> S i j = M i j.
  Proof.
    move=> Hsym. have [S [HS [Hs Hu]]] := @unpack_ok (upper_triangle n M) n (upper_size n M).
    exists S; split=> // i j Hi Hj. case: (leqP i j) => H; first exact: upper_inj Hu _ _ Hi Hj H.
    rewrite Hs // Hsym //. apply: upper_inj Hu _ _ Hj Hi (ltnW H).
  Qed.

  Lemma unpack_bad row n : (size row).*2 <> n * n.+1 -> size row <> 1 -> from_row_to_covariance zero row n = Raise ValueError.
  Proof.
    move=> Hs H1. rewrite /from_row_to_covariance {1}/mask_assign. case: eqP => [E|_]; first by rewrite E pos_size in Hs.
    by case: row Hs H1 => [|a [|b row]].
  Qed.

  Lemma fill_spec pos v : forall S i j, foldl (fun S p => aset S p v) S pos i j = if (i, j) \in pos then v else S i j.
  Proof.
    elim: pos => [//|p pos IH] S i j /=. rewrite IH in_cons /aset. case: (eqVneq (i, j) p) => [<-|Hne] /=; first by rewrite !eqxx; case: ifP.
    case: ifP => // _. case: p Hne => a b Hne /=. case: andP => // -[/eqP E1 /eqP E2]. by rewrite E1 E2 eqxx in Hne.
  Qed.
  Lemma unpack_one v n : exists S, from_row_to_covariance zero [:: v] n = Ok S /\ forall i j, i < n -> j < n -> S i j = v.
  Proof.
    rewrite /from_row_to_covariance.
    have [S1 [E1 HS1]]: exists S1, mask_assign (fun _ _ => zero) (mask_pos n (fun i j => i <= j)) [:: v] = Ok S1 /\
      forall i j, i < n -> j < n -> i <= j -> S1 i j = v.
    { rewrite /mask_assign. case: eqP => [E|_]; eexists; split; try reflexivity; move=> i j Hi Hj Hij.
      - rewrite assign_spec ?mask_uniq // mask_mem Hi Hj Hij /=.
        have: index (i, j) (mask_pos n (fun i j => i <= j)) < 1 by change 1 with (size [:: v]); rewrite E index_mem mask_mem Hi Hj. by case: (index _ _).
      - by rewrite fill_spec mask_mem Hi Hj Hij. }
    rewrite E1 /=. have [S' [-> HS']] := second_half n S1. exists S'; split=> // i j Hi Hj.
    rewrite HS' // /mirror. case: (leqP i j) => H; apply: HS1 => //. exact: ltnW.
  Qed.
End Pack.
