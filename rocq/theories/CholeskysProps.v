(** * get_choleskys: proofs. *)
From Coq Require Import Reals ZArith String List Lia Lra.
Set Warnings "-notation-overridden,-ambiguous-paths".
From mathcomp Require Import all_ssreflect all_algebra.
From Verif Require Import RStruct MatR Num Py Combination Smooth Choleskys.
Set Implicit Arguments.
Unset Strict Implicit.
Unset Printing Implicit Defensive.
Import GRing.Theory.
Local Open Scope ring_scope.
Delimit Scope R_scope with re.
Delimit Scope Z_scope with z.

Theorem chols_succeed n (covs : list (Z * cframe n)) : (forall tS, List.In tS covs -> sym (c_val tS.2)) ->
  ((exists r, get_choleskys covs = Ok r) <-> (forall tS, List.In tS covs -> spd (c_val tS.2))) /\
  (forall e, get_choleskys covs = Raise e -> e = LinAlgError).
Proof.
rewrite /get_choleskys. elim: covs => [|[t S] l IH] H /=.
  by split=> //; split=> // _; eexists.
have Hs : sym (c_val S) by exact: (H (t, S) (or_introl erefl)).
have [IH1 IH2] := IH (fun tS Hi => H tS (or_intror Hi)).
case E: (chol (c_val S)) => [L|] /=.
  have Hp : spd (c_val S) by apply: is_chol_spd; apply: chol_is_chol E.
  move: IH1 IH2. case: (choleskys_loop l) => [r|e] /= IH1 IH2; split.
  - split=> [_ tS [<-//|Hi]|_]; last by eexists. exact: (proj1 IH1 (ex_intro _ r erefl) tS Hi).
  - by [].
  - split=> [[r //]|HH]. have [r //] := proj2 IH1 (fun tS Hi => HH tS (or_intror Hi)).
  - by move=> e' [<-]; apply: IH2.
have Hn := proj1 (chol_none Hs) E. split=> [|e [<-//]].
split=> [[r //]|HH]. case: Hn. exact: (HH (t, S) (or_introl erefl)).
Qed.

Theorem chols_factors n (covs : list (Z * cframe n)) Fs ds : (forall tS, List.In tS covs -> sym (c_val tS.2)) ->
  get_choleskys covs = Ok (Fs, ds) ->
  List.map fst Fs = List.map fst covs /\ List.map fst ds = List.map fst covs /\
  forall k t S, List.nth_error covs k = Some (t, S) -> exists F d, List.nth_error Fs k = Some (t, F) /\ List.nth_error ds k = Some (t, d) /\
    c_index F = c_index S /\ c_columns F = c_columns S /\ s_index d = c_index S /\ s_val d = 0 /\
    (forall i j : 'I_n, (i < j)%N -> c_val F i j = 0) /\ (forall i, (0 < c_val F i i)%re) /\ c_val F *m (c_val F)^T = c_val S.
Proof.
rewrite /get_choleskys. elim: covs Fs ds => [|[t0 S0] l IH] Fs ds H /=.
  by move=> [<- <-]; split=> //; split=> // -[].
have Hs : sym (c_val S0) by exact: (H (t0, S0) (or_introl erefl)).
case E: (chol (c_val S0)) => [L|] //=. have [C1 [C2 C3]] := chol_is_chol Hs E.
case El: (choleskys_loop l) => [[Fs' ds']|] //= [<- <-].
have [I1 [I2 I3]] := IH Fs' ds' (fun tS Hi => H tS (or_intror Hi)) El.
split; first by rewrite /= I1. split; first by rewrite /= I2.
case=> [|k] t S /=; last exact: I3.
move=> [<- <-]. do 2 eexists. split; first by []. split; first by []. do 4 split=> //.
split; last by split. move=> i j Hij. exact: (is_trig_mxP C1).
Qed.

Theorem chols_risk n (covs : list (Z * cframe n)) Fs ds k t S F d (w : 'cV[R]_n) : (forall tS, List.In tS covs -> sym (c_val tS.2)) ->
  get_choleskys covs = Ok (Fs, ds) -> List.nth_error covs k = Some (t, S) -> List.nth_error Fs k = Some (t, F) -> List.nth_error ds k = Some (t, d) ->
  (nsq ((c_val F)^T *m w) + nsq (\col_i (s_val d i 0 * w i 0)))%R = qf (c_val S) w.
Proof.
move=> H Hr Hk HF Hd. have [_ [_ A]] := chols_factors H Hr. have [F' [d' [B1 [B2 [_ [_ [_ [D0 [_ [_ EF]]]]]]]]]] := A _ _ _ Hk.
move: B1; rewrite HF => -[B1]; subst F'. move: B2; rewrite Hd => -[B2]; subst d'.
have -> : \col_i (s_val d i 0 * w i 0) = 0 by apply/colP => i; rewrite !mxE D0 mxE mul0r.
have -> : nsq (0 : 'cV[R]_n) = 0 by rewrite /nsq mulmx0 mxE.
by rewrite addr0 /nsq /qf -EF trmx_mul trmxK !mulmxA.
Qed.

Lemma scal_sym n (a : R) : sym (a%:M : 'M[R]_n). Proof. exact: tr_scalar_mx. Qed.
Lemma scal_spd n (a : R) : (0 < a)%re -> spd (a%:M : 'M[R]_n).
Proof.
move=> Ha. apply: (@is_chol_spd n _ (sqrt a)%:M). split; first exact: scalar_mx_is_trig.
split; first by move=> i; rewrite mxE eqxx mulr1n; apply: sqrt_lt_R0.
rewrite tr_scalar_mx -scalar_mxM. congr (_%:M). apply: sqrt_sqrt. exact: Rlt_le.
Qed.
Lemma chol_case : exists Fs ds, get_choleskys [:: (1%z, mkC [::] [::] ((4%re)%:M : 'M[R]_2)); (2%z, mkC [::] [::] (9%re)%:M)] = Ok (Fs, ds).
Proof.
have H : forall tS, List.In tS [:: (1%z, mkC [::] [::] ((4%re)%:M : 'M[R]_2)); (2%z, mkC [::] [::] (9%re)%:M)] -> spd (c_val tS.2).
  by move=> tS [<-|[<-|[]]] /=; apply: scal_spd; lra.
have [[_ A] _] := chols_succeed (fun tS Hi => proj1 (H tS Hi)). have [[Fs ds] E] := A H. by exists Fs, ds.
Qed.
Lemma chol_case_fails : get_choleskys [:: (1%z, mkC [::] [::] ((4%re)%:M : 'M[R]_2)); (2%z, mkC [::] [::] 0)] = Raise LinAlgError.
Proof.
have Hs : forall tS, List.In tS [:: (1%z, mkC [::] [::] ((4%re)%:M : 'M[R]_2)); (2%z, mkC [::] [::] 0)] -> sym (c_val tS.2).
  by move=> tS [<-|[<-|[]]] /=; [exact: scal_sym|rewrite /sym trmx0].
have [[A _] B] := chols_succeed Hs. case E: (get_choleskys _) => [r|e]; last by rewrite (B _ E).
have HH := A (ex_intro _ r E) _ (or_intror (or_introl erefl)). have := proj2 HH (const_mx 1).
rewrite /qf /= mulmx0 mul0mx mxE. have Hn : const_mx 1 != 0 :> 'cV[R]_2.
  apply/eqP => /matrixP/(_ 0 0). rewrite !mxE. move/eqP. by rewrite oner_eq0.
move=> /(_ Hn). toR. lra.
Qed.
