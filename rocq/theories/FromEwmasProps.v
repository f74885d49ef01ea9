(** * from_ewmas: facts. *)
From Coq Require Import String Reals Lra List Bool ZArith Arith Lia.
From Verif Require Import Num Py ListFacts Ewma EwmaTot EwmaPrefix Spec SpecEwma EwmaReal EwmaProps EwmaProps2 EwmaProps3 Combination SpecComb CombFacts CombBuild FromEwmas SpecFrom.
Import ListNotations.

(** ** Dictionaries with string keys. *)
Lemma firsts_In l a : In a (firsts l) <-> In a l.
Proof.
  induction l as [|b l IH]; simpl; [tauto|]. rewrite filter_In, IH. destruct (String.eqb_spec a b).
  - subst; tauto.
  - split; [intros [H|[H _]]; auto|intros [H|H]; auto].
Qed.
Lemma firsts_NoDup l : NoDup (firsts l).
Proof.
  induction l as [|b l IH]; simpl; constructor.
  - rewrite filter_In. intros [_ H]. rewrite String.eqb_refl in H. discriminate.
  - apply NoDup_filter; auto.
Qed.

Section KD.
  Context {V : Type}.
  Implicit Types (d : kdict V).
  Lemma kset_get d k v k' : dict_get String.eqb (dict_set String.eqb d k v) k' =
    if String.eqb k' k then Some v else dict_get String.eqb d k'.
  Proof.
    induction d as [|[a w] d IH]; simpl; auto.
    destruct (String.eqb_spec k a) as [->|Hn]; simpl.
    - destruct (String.eqb_spec k' a); auto.
    - rewrite IH. destruct (String.eqb_spec k' a) as [->|]; auto.
      destruct (String.eqb_spec a k); congruence.
  Qed.
  Lemma kset_keys d k v : map fst (dict_set String.eqb d k v) =
    map fst d ++ (if existsb (String.eqb k) (map fst d) then [] else [k]).
  Proof.
    induction d as [|[a w] d IH]; simpl; auto.
    destruct (String.eqb_spec k a); simpl; [rewrite app_nil_r; auto|]. f_equal; auto.
  Qed.
  Lemma fold_kset_get l : forall d k,
    dict_get String.eqb (fold_left (fun d kv => dict_set String.eqb d (fst kv) (snd kv)) l d) k =
    match last_value l k with Some v => Some v | None => dict_get String.eqb d k end.
  Proof.
    induction l as [|[a v] l IH]; intros d k; simpl; auto. rewrite IH. destruct (last_value l k); auto.
    rewrite kset_get. destruct (String.eqb k a); auto.
  Qed.
  Lemma fold_kset_keys (l : list (string * V)) : forall d,
    map fst (fold_left (fun d kv => dict_set String.eqb d (fst kv) (snd kv)) l d) =
    map fst d ++ filter (fun k => negb (existsb (String.eqb k) (map fst d))) (firsts (map fst l)).
  Proof.
    induction l as [|[a v] l IH]; intros d; [simpl; rewrite app_nil_r; auto|]. cbn [fold_left map fst snd firsts].
    rewrite IH, kset_keys. cbn [filter]. destruct (existsb (String.eqb a) (map fst d)) eqn:Ea; cbn [negb].
    - rewrite app_nil_r. f_equal. rewrite filter_filter. apply filter_ext_in. intros b _.
      destruct (String.eqb_spec b a); simpl; auto. subst. rewrite Ea. auto.
    - rewrite <- app_assoc. f_equal. simpl. f_equal. rewrite filter_filter. apply filter_ext. intros b.
      rewrite existsb_app. simpl. rewrite orb_false_r, negb_orb, andb_comm. reflexivity.
  Qed.
  Lemma dict_of_get (l : list (string * V)) k : dict_get String.eqb (dict_of String.eqb l) k = last_value l k.
  Proof. unfold dict_of. rewrite fold_kset_get. destruct (last_value l k); auto. Qed.
  Lemma dict_of_keys (l : list (string * V)) : map fst (dict_of String.eqb l) = firsts (map fst l).
  Proof. unfold dict_of. rewrite fold_kset_keys. simpl. apply filter_all. auto. Qed.
End KD.

Lemma last_value_map {A B} (f : A -> B) (l : list (string * A)) k :
  last_value (map (fun kv => (fst kv, f (snd kv))) l) k = option_map f (last_value l k).
Proof.
  induction l as [|[a v] l IH]; simpl; auto. rewrite IH. destruct (last_value l k); simpl; auto.
  destruct (String.eqb k a); auto.
Qed.
Lemma last_value_in {A} (l : list (string * A)) k v : last_value l k = Some v -> In (k, v) l.
Proof.
  induction l as [|[a w] l IH]; simpl; [discriminate|]. destruct (last_value l k) eqn:E.
  - intros [= ->]. auto.
  - destruct (String.eqb_spec k a); [|discriminate]. intros [= ->]. subst; auto.
Qed.
Lemma last_value_key {A} (l : list (string * A)) k : In k (map fst l) -> exists v, last_value l k = Some v.
Proof.
  induction l as [|[a w] l IH]; simpl; [tauto|]. intros H. destruct (last_value l k); eauto.
  destruct (String.eqb_spec k a); eauto. destruct H; [congruence|]. destruct (IH H); discriminate.
Qed.

Lemma mapM_map_out {A B C} (f : A -> res B) (g : B -> C) l :
  mapM (fun a => do b <- f a; Ok (g b)) l = do r <- mapM f l; Ok (map g r).
Proof.
  induction l as [|a l IH]; simpl; auto. destruct (f a); simpl; auto. rewrite IH. destruct (mapM f l); auto.
Qed.

(** The items of one run have distinct times. *)
Lemma times_nodup {N : Num} P f outs : nisnan nnan = true -> length (findex f) = length (fvals f) -> NoDup (findex f) ->
  iterated_ewma P f = Ok outs -> NoDup (map itime outs).
Proof.
  intros Hnan H1 H2 HO. assert (Hg : good f) by (split; auto).
  destruct (iterated_betas _ _ _ HO) as (b1 & bv & b2 & bc & Hb).
  rewrite (iterated_ewma_betas _ _ _ _ _ _ Hnan Hg Hb) in HO.
  destruct (isnil _); [discriminate|]. inversion HO; subst outs; clear HO.
  unfold it_tot. rewrite map_map. unfold item. cbn [itime]. unfold cov_tot. rewrite map_map. cbn [fst].
  apply NoDup_map_fst_filter. destruct (good_adj b1 bv b2 P f Hg) as [E1 E2]. rewrite gen_tot_fst; auto.
Qed.

Section Props.
  Context {N : Num} (LA : LinAlg) (label : option num * option num -> string)
          (to_mat : frame string -> l_mat LA) (to_vec : vec -> l_vec LA).
  Context (returns : frame time) (pairs : list (option num * option num)) (mpv mpc : nat)
          (clip_at : option num) (mean : bool).
  Notation run p := (iterated_ewma (pair_params mpv mpc clip_at mean p) returns).
  Notation rows := (rows_of_frame LA to_vec returns).
  Notation the_combination := (from_ewmas LA label to_mat to_vec returns pairs mpv mpc clip_at mean).

  Notation expert_covs := (SpecFrom.expert_covs LA to_mat).
  Notation expert_means := (SpecFrom.expert_means LA to_vec).
  Lemma results_dict outs :
    (forall p, In p pairs -> run p = Ok (outs p)) ->
    (forall p, In p pairs -> NoDup (map itime (outs p))) ->
    ewma_results label returns pairs mpv mpc clip_at mean =
    Ok (dict_of String.eqb (map (fun p => (label p, map (fun o => (itime o, o)) (outs p))) pairs)).
  Proof.
    intros H Hn. unfold ewma_results.
    rewrite (mapM_ok _ (fun p => (label p, map (fun o => (itime o, o)) (outs p)))); [reflexivity|].
    intros p Hp. rewrite (H p Hp). cbn [bind]. do 2 f_equal. apply dict_of_nodup. rewrite map_map. apply Hn; auto.
  Qed.

  Lemma nested_keys {A B} (ob : kdict (tdict A)) (f : A -> B) : map fst (map_nested_dicts ob f) = map fst ob.
  Proof. unfold map_nested_dicts. rewrite map_map. reflexivity. Qed.
  Lemma nested_get {A B} (ob : kdict (tdict A)) (f : A -> B) k :
    dict_get String.eqb (map_nested_dicts ob f) k =
    option_map (map (fun ta => (fst ta, f (snd ta)))) (dict_get String.eqb ob k).
  Proof. induction ob as [|[a d] ob IH]; simpl; auto. destruct (String.eqb k a); auto. Qed.

  (** The dictionaries handed to from_sigmas. *)
  Theorem is_from_sigmas outs :
    nisnan nnan = true -> length (findex returns) = length (fvals returns) -> NoDup (findex returns) ->
    (forall p, In p pairs -> run p = Ok (outs p)) ->
    exists sigmas means,
      the_combination = from_sigmas LA sigmas rows (Some means) /\
      map fst sigmas = firsts (map label pairs) /\ map fst means = firsts (map label pairs) /\
      dicts sigmas /\ dicts means /\
      (forall k, dict_get String.eqb sigmas k = last_value (map (fun p => (label p, expert_covs (outs p))) pairs) k) /\
      (forall k, dict_get String.eqb means k = last_value (map (fun p => (label p, expert_means (outs p))) pairs) k) /\
      (forall c, the_combination = Ok c -> K_of LA c = length (firsts (map label pairs))).
  Proof.
    intros Hnan Hlen Hnd H.
    assert (Hn : forall p, In p pairs -> NoDup (map itime (outs p))).
    { intros p Hp. eapply times_nodup; eauto. }
    set (D := dict_of String.eqb (map (fun p => (label p, map (fun o => (itime o, o)) (outs p))) pairs)).
    assert (Hk : map fst D = firsts (map label pairs)).
    { unfold D. rewrite dict_of_keys, map_map. reflexivity. }
    assert (Hdict : forall {C} (f : IEWMA -> C), dicts (map_nested_dicts D f)).
    { intros C f. split.
      - rewrite nested_keys, Hk. apply firsts_NoDup.
      - apply Forall_forall. intros ks Hks. unfold map_nested_dicts in Hks. apply in_map_iff in Hks.
        destruct Hks as ([k d] & <- & Hin). cbn [fst snd]. rewrite map_map. cbn [fst].
        assert (Hget : dict_get String.eqb D k = Some d) by (apply kget_in; auto; rewrite Hk; apply firsts_NoDup).
        unfold D in Hget. rewrite dict_of_get in Hget. apply last_value_in in Hget.
        apply in_map_iff in Hget. destruct Hget as (p & E & Hp). injection E as _ <-. rewrite map_map. apply Hn; auto. }
    exists (map_nested_dicts D (fun r => to_mat (icov r))), (map_nested_dicts D (fun r => to_vec (imean r))).
    assert (Hc : the_combination = from_sigmas LA (map_nested_dicts D (fun r => to_mat (icov r))) rows
                 (Some (map_nested_dicts D (fun r => to_vec (imean r))))).
    { unfold from_ewmas. rewrite (results_dict outs); auto. }
    split; [exact Hc|]. split; [rewrite nested_keys; auto|]. split; [rewrite nested_keys; auto|].
    split; [apply Hdict|]. split; [apply Hdict|]. split; [|split].
    - intros k. rewrite nested_get. unfold D. rewrite dict_of_get, <- last_value_map, map_map. cbn [fst snd].
      f_equal. apply map_ext. intros p. f_equal. unfold expert_covs. rewrite map_map. reflexivity.
    - intros k. rewrite nested_get. unfold D. rewrite dict_of_get, <- last_value_map, map_map. cbn [fst snd].
      f_equal. apply map_ext. intros p. f_equal. unfold expert_means. rewrite map_map. reflexivity.
    - intros c E. rewrite Hc in E. apply from_sigmas_inv in E; [|apply Hdict]. destruct E as (_ & _ & _ & ->).
      unfold K_of, built. cbn [c_sigmas]. rewrite <- Hk, <- (nested_keys D (fun r => to_mat (icov r))), map_length. reflexivity.
  Qed.

  (** A pair whose iterated_ewma raises makes from_ewmas raise the same exception (the first such pair). *)
  Theorem pair_raises p ps ps' e :
    pairs = ps ++ p :: ps' -> (forall q, In q ps -> exists o, run q = Ok o) -> run p = Raise e ->
    the_combination = Raise e.
  Proof.
    intros -> Hok He. unfold from_ewmas, ewma_results. rewrite mapM_app. cbn [mapM]. rewrite He.
    destruct (mapM_cases (fun pair => do r <- run pair; Ok (label pair, dict_of Z.eqb (map (fun o => (itime o, o)) r))) ps)
      as [(r & E)|(x & e' & Hx & E & _)].
    - rewrite E. reflexivity.
    - destruct (Hok x Hx) as (o & Eo). rewrite Eo in E. discriminate.
  Qed.
End Props.

(** ** Exact arithmetic: all experts cover the same times. *)
Local Open Scope R_scope.

Lemma first_change (u : nat -> R) s : u s <> u 0%nat ->
  exists m, (m < s)%nat /\ (forall i, (i <= m)%nat -> u i = u 0%nat) /\ u (S m) <> u 0%nat.
Proof.
  induction s as [|s IH]; intros H; [congruence|]. destruct (Req_dec (u s) (u 0%nat)) as [E|E].
  - clear IH. revert H E. 
    assert (Hind : forall k, u k = u 0%nat \/ exists m, (m < k)%nat /\ (forall i, (i <= m)%nat -> u i = u 0%nat) /\ u (S m) <> u 0%nat).
    { assert (Hs : forall k, (forall i, (i <= k)%nat -> u i = u 0%nat) \/ exists m, (m < k)%nat /\ (forall i, (i <= m)%nat -> u i = u 0%nat) /\ u (S m) <> u 0%nat).
      { induction k as [|k [IHk|(m & H1 & H2 & H3)]].
        - left. intros i Hi. replace i with 0%nat by lia. auto.
        - destruct (Req_dec (u (S k)) (u 0%nat)) as [E|E].
          + left. intros i Hi. destruct (Nat.eq_dec i (S k)); [subst; auto|]. apply IHk. lia.
          + right. exists k. repeat split; auto.
        - right. exists m. repeat split; auto. }
      intros k. destruct (Hs k) as [H|H]; [left; auto|right; auto]. }
    intros H E. destruct (Hind (S s)) as [H'|H']; [congruence|auto].
  - destruct (IH E) as (m & H1 & H2 & H3). exists m. repeat split; auto.
Qed.

Lemma ewavg_ext b u v k : (forall i, (i <= k)%nat -> u i = v i) -> ewavg b u k = ewavg b v k.
Proof. intros H. unfold ewavg. f_equal. apply rsum_ext. intros s Hs. rewrite H by lia. auto. Qed.

Lemma moved_centred mean x n w h : 0 < h -> moved mean x n w ->
  exists j s, (j < n)%nat /\ (s <= w)%nat /\ centred mean h x j s <> 0.
Proof.
  intros Hh (j & s & Hj & Hs & H). destruct mean; [|exists j, s; auto].
  destruct (first_change (x j) s H) as (m & H1 & H2 & H3). exists j, (S m). split; auto. split; [lia|].
  unfold centred. pose proof (decay_bounds h Hh) as Hb. rewrite ewavg_S by auto.
  rewrite (ewavg_ext _ (x j) (fun _ => x j 0%nat)) by auto. rewrite ewavg_const by auto.
  pose proof (wnew_lt1 (decay h) Hb (S m) ltac:(lia)) as Hw.
  intros E. assert (E2 : (1 - wnew (decay h) (S m)) * (x j (S m) - x j 0%nat) = 0) by lra.
  apply Rmult_integral in E2. destruct E2; lra.
Qed.

Section Exact.
  Context (LA : LinAlg) (label : option xr * option xr -> string)
          (to_mat : frame (N := XR) string -> l_mat LA) (to_vec : list xr -> l_vec LA).
  Context (returns : frame (N := XR) time) (x : nat -> nat -> R) (pairs : list (option xr * option xr))
          (mpv mpc : nat) (clip_at : option xr) (rc : option R) (mean : bool).
  Notation the_combination := (from_ewmas (N := XR) LA label to_mat to_vec returns pairs mpv mpc clip_at mean).
  Notation rows := (rows_of_frame (N := XR) LA to_vec returns).

  Hypothesis Hv : valid_returns returns.
  Hypothesis Hx : returns_are true returns x.
  Hypothesis Hp : positive_halflives pairs.
  Hypothesis Hcl : clip_is clip_at rc.

  Lemma pair_settings p : In p pairs -> exists h1 h2,
    settings (pair_params (N := XR) mpv mpc clip_at mean p) h1 h2 h1 h2 rc /\ 0 < h1.
  Proof.
    intros H. destruct (Hp p H) as (h1 & h2 & -> & H1 & H2). exists h1, h2. split; auto.
    split; [split; auto|]. split; [split; auto|]. split; [left; auto|]. split; [left; auto|]. exact Hcl.
  Qed.

  Theorem too_short : pairs <> [] -> (length (findex returns) < Nat.max 1 mpv)%nat ->
    the_combination = Raise IndexError.
  Proof.
    intros Hne Hl. assert (E : exists p ps, pairs = p :: ps) by (destruct pairs; [congruence|eauto]).
    destruct E as (p & ps & E).
    eapply (pair_raises (N := XR) LA label to_mat to_vec returns pairs mpv mpc clip_at mean p [] ps).
    - exact E.
    - simpl; tauto.
    - destruct (pair_settings p ltac:(rewrite E; simpl; auto)) as (h1 & h2 & HS & _).
      eapply schedule_short; eauto.
  Qed.

  Lemma skipn_In {A} k (l : list A) a : In a (skipn k l) -> In a l.
  Proof. intros H. rewrite <- (firstn_skipn k l). apply in_or_app; auto. Qed.
  Lemma skipn_NoDup {A} k (l : list A) : NoDup l -> NoDup (skipn k l).
  Proof. intros H. rewrite <- (firstn_skipn k l) in H. induction (firstn k l); simpl in *; auto. inversion H; auto. Qed.

  Theorem same_schedule_outs :
    (Nat.max 1 mpv <= length (findex returns))%nat ->
    moved mean x (length (fcols returns)) (first_pos mpv) ->
    exists sigmas means outs,
      (forall p, In p pairs -> iterated_ewma (pair_params (N := XR) mpv mpc clip_at mean p) returns = Ok (outs p) /\
        map itime (outs p) = skipn (first_pos mpv + first_pos mpc) (findex returns)) /\
      dicts sigmas /\
      (forall k, dict_get String.eqb sigmas k = last_value (map (fun p => (label p, expert_covs (N := XR) LA to_mat (outs p))) pairs) k) /\
      the_combination = from_sigmas LA sigmas rows (Some means) /\
      map fst sigmas = firsts (map label pairs) /\ same_times LA sigmas /\
      (forall ks, In ks sigmas -> map fst (snd ks) = skipn (first_pos mpv + first_pos mpc) (findex returns)) /\
      (factors_exist LA sigmas -> exists c, the_combination = Ok c /\ K_of LA c = length (firsts (map label pairs))) /\
      (~ factors_exist LA sigmas -> the_combination = Raise LinAlgError).
  Proof.
    intros Hl Hm.
    assert (Hrun : forall p, In p pairs -> exists outs, iterated_ewma (pair_params (N := XR) mpv mpc clip_at mean p) returns = Ok outs /\
        map itime outs = skipn (first_pos mpv + first_pos mpc) (findex returns)).
    { intros p Hin. destruct (pair_settings p Hin) as (h1 & h2 & HS & Hh).
      destruct (schedule_full _ _ x _ _ _ _ _ HS Hv Hx Hl) as (outs & H1 & H2); eauto.
      apply (moved_centred mean x _ _ h1 Hh Hm). }
    set (outs := fun p => match iterated_ewma (pair_params (N := XR) mpv mpc clip_at mean p) returns with Ok o => o | Raise _ => [] end).
    assert (Ho : forall p, In p pairs -> iterated_ewma (pair_params (N := XR) mpv mpc clip_at mean p) returns = Ok (outs p) /\
        map itime (outs p) = skipn (first_pos mpv + first_pos mpc) (findex returns)).
    { intros p Hin. unfold outs. destruct (Hrun p Hin) as (o & -> & E). auto. }
    assert (Hnd : NoDup (skipn (first_pos mpv + first_pos mpc) (findex returns))).
    { apply skipn_NoDup, increasing_NoDup. apply Hv. }
    destruct (is_from_sigmas (N := XR) LA label to_mat to_vec returns pairs mpv mpc clip_at mean outs) as
      (sigmas & means & E & K1 & K2 & D1 & D2 & G1 & G2 & HK).
    { reflexivity. } { apply Hv. } { apply increasing_NoDup, Hv. }
    { intros p Hin. apply Ho; auto. }
    exists sigmas, means, outs. split; [exact Ho|]. split; [exact D1|]. split; [exact G1|]. split; [auto|]. split; [auto|].
    assert (Ht : forall ks, In ks sigmas -> map fst (snd ks) = skipn (first_pos mpv + first_pos mpc) (findex returns)).
    { intros [k d] Hk. assert (Eg : dict_get String.eqb sigmas k = Some d) by (apply kget_in; auto; apply D1).
      rewrite G1 in Eg. apply last_value_in, in_map_iff in Eg. destruct Eg as (p & Ep & Hin). injection Ep as _ <-.
      cbn [snd]. unfold expert_covs. rewrite map_map. cbn [fst]. apply (Ho p Hin). }
    assert (Hs : same_times LA sigmas).
    { intros ks t Hk. rewrite (Ht ks Hk). destruct sigmas as [|k0 s0]; [destruct Hk|]. cbn [forecast_times].
      rewrite (Ht k0) by (simpl; auto). tauto. }
    assert (Hmok : means_ok LA sigmas (Some means)).
    { intros [k d] Hk. cbn [fst snd].
      assert (Hin : In k (map fst means)). { rewrite K2, <- K1. apply in_map_iff. exists (k, d); auto. }
      rewrite K2 in Hin. apply (firsts_In (map label pairs)) in Hin.
      destruct (last_value_key (map (fun p => (label p, expert_means (N := XR) LA to_vec (outs p))) pairs) k) as (mk & Emk).
      { rewrite map_map. exact Hin. }
      exists mk. rewrite G2. split; auto. intros t. apply last_value_in, in_map_iff in Emk. destruct Emk as (p & Ep & Hpin).
      injection Ep as _ <-. unfold expert_means. rewrite map_map. cbn [fst]. pose proof (proj2 (Ho p Hpin)) as Eo. change (map (fun o : IEWMA => itime o) (outs p)) with (map itime (outs p)). rewrite Eo.
      specialize (Ht (k, d) Hk). cbn [snd] in Ht. rewrite Ht. tauto. }
    split; [auto|]. split; [auto|]. split.
    - intros Hf. rewrite E. eexists. split; [apply from_sigmas_ok; auto|]. apply HK. rewrite E. apply from_sigmas_ok; auto.
    - intros Hf. rewrite E. apply from_sigmas_singular; auto.
  Qed.
  Theorem same_schedule :
    (Nat.max 1 mpv <= length (findex returns))%nat ->
    moved mean x (length (fcols returns)) (first_pos mpv) ->
    exists sigmas means,
      the_combination = from_sigmas LA sigmas rows (Some means) /\
      map fst sigmas = firsts (map label pairs) /\ same_times LA sigmas /\
      (forall ks, In ks sigmas -> map fst (snd ks) = skipn (first_pos mpv + first_pos mpc) (findex returns)) /\
      (factors_exist LA sigmas -> exists c, the_combination = Ok c /\ K_of LA c = length (firsts (map label pairs))) /\
      (~ factors_exist LA sigmas -> the_combination = Raise LinAlgError).
  Proof.
    intros Hl Hm. destruct (same_schedule_outs Hl Hm) as (sigmas & means & outs & _ & _ & _ & H). exists sigmas, means. exact H.
  Qed.
End Exact.
