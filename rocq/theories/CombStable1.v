(** * Stability of the combination under small changes of its data: dictionaries (plain-style part, C143). *)
From Coq Require Import String List Bool ZArith Arith Lia.
From Verif Require Import Num Py ListFacts Combination SpecComb CombFacts CombBuild CombSolve CombRun CombProps CombItems.
Import ListNotations.

Section Valid.
  Context (LA : LinAlg).
  (** A run that gets past the preparation was given valid times. *)
  Lemma prepare_valid (sigmas : kdict (tdict (l_mat LA))) returns means window times todo :
    dicts sigmas -> returns_known LA sigmas returns ->
    prepare LA (built LA sigmas returns means) window times = Ok todo -> valid_times LA sigmas times.
  Proof.
    intros Hd Hr Hp ts Et. subst times. destruct ts as [|t ts].
    { rewrite prepare_times_empty in Hp by auto. discriminate. }
    split; [discriminate|].
    destruct (in_dec Z.eq_dec t (scored LA sigmas)) as [H|H]; [|rewrite prepare_times_unknown in Hp by auto; discriminate].
    destruct (Exists_dec (fun z => t :: ts = sub (scored LA sigmas) z (length (t :: ts))) (seq 0 (length (scored LA sigmas)))
               (fun z => list_eq_dec Z.eq_dec _ _)) as [Hz|Hz].
    - apply Exists_exists in Hz. destruct Hz as (z & _ & Hz). exists z. exact Hz.
    - rewrite prepare_times_gap in Hp; auto; [discriminate|]. intros z E. apply Hz. apply Exists_exists. exists z. split; auto.
      apply in_seq. split; [lia|]. destruct (le_lt_dec (length (scored LA sigmas)) z); [|lia].
      unfold sub in E. rewrite skipn_all2 in E by auto. rewrite firstn_nil in E. discriminate.
  Qed.
End Valid.

(** Looking up in dictionaries with the same keys. *)
Lemma zget_near {V W} (P : V -> W -> Prop) (a : list (Z * V)) (b : list (Z * W)) t :
  Forall2 (fun x y => fst y = fst x /\ P (snd x) (snd y)) a b ->
  match dict_get Z.eqb a t, dict_get Z.eqb b t with Some v, Some w => P v w | None, None => True | _, _ => False end.
Proof.
  induction 1 as [|[k v] [k' w] a b [E H] _ IH]; simpl; auto. simpl in E. subst k'.
  destruct (Z.eqb _ _); auto.
Qed.
Lemma kget_near {V W} (P : V -> W -> Prop) (a : list (string * V)) (b : list (string * W)) t :
  Forall2 (fun x y => fst y = fst x /\ P (snd x) (snd y)) a b ->
  match dict_get String.eqb a t, dict_get String.eqb b t with Some v, Some w => P v w | None, None => True | _, _ => False end.
Proof.
  induction 1 as [|[k v] [k' w] a b [E H] _ IH]; simpl; auto. simpl in E. subst k'.
  destruct (String.eqb _ _); auto.
Qed.
Lemma keys_near {A V W} (P : V -> W -> Prop) (a : list (A * V)) (b : list (A * W)) :
  Forall2 (fun x y => fst y = fst x /\ P (snd x) (snd y)) a b -> map fst b = map fst a.
Proof. induction 1 as [|x y a b [E H] _ IH]; simpl; congruence. Qed.
Lemma nth_near {V W} (P : V -> W -> Prop) (a : list (string * V)) (b : list (string * W)) da db k :
  Forall2 (fun x y => fst y = fst x /\ P (snd x) (snd y)) a b -> P (snd da) (snd db) -> fst db = fst da ->
  fst (nth k b db) = fst (nth k a da) /\ P (snd (nth k a da)) (snd (nth k b db)).
Proof. intros H H1 H2. revert k. induction H as [|x y a b [E H] _ IH]; intros [|k]; simpl; auto. Qed.
Lemma in_near {A V W} (P : V -> W -> Prop) (a : list (A * V)) (b : list (A * W)) y :
  Forall2 (fun x y => fst y = fst x /\ P (snd x) (snd y)) a b -> In y b -> exists x, In x a /\ fst y = fst x /\ P (snd x) (snd y).
Proof.
  induction 1 as [|x0 y0 a b [E H] _ IH]; simpl; [tauto|]. intros [<-|Hy]; [exists x0; auto|].
  destruct (IH Hy) as (x & H1 & H2). exists x; auto.
Qed.
Lemma f2_impl {A B} (P Q : A -> B -> Prop) l l' : (forall x y, P x y -> Q x y) -> Forall2 P l l' -> Forall2 Q l l'.
Proof. intros H. induction 1; constructor; auto. Qed.
Lemma f2_len {A B} (P : A -> B -> Prop) l l' : Forall2 P l l' -> length l' = length l.
Proof. induction 1; simpl; congruence. Qed.
