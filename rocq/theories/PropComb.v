(** * Properties of cvx/covariance/combination.py that hold for every linear algebra (C17, C18, C23-C25, C27,
    C29, C30).

    Models: Combination.v, FromEwmas.v.  Vocabulary: SpecComb.v, SpecFrom.v.  [LA : LinAlg] is an arbitrary
    collection of array operations (floating point included). *)
From Coq Require Import String Reals Lra List Bool ZArith Arith Lia.
From Verif Require Import Num Py Ewma Spec SpecEwma Combination SpecComb CombBuild CombProps CombItems FromEwmas SpecFrom FromEwmasProps ExEwma RealLA CombEx.
Import ListNotations.

Section Any.
  Context (LA : LinAlg).
  Notation covs := (kdict (tdict (l_mat LA))).
  Notation mus := (option (kdict (tdict (l_vec LA)))).
  Notation rets := (tdict (l_vec LA)).
  Notation from_sigmas := (from_sigmas LA).
  Notation solve := (solve LA).
  Notation forecast_times := (forecast_times LA).
  Notation returns_known := (returns_known LA).

  (** C17.  sigmas', means' and returns ++ ext extend the data with later forecasts and returns.  Even the
      items of a run that fails later are not needed: the short run is a prefix of the long one. *)
  Theorem C17_no_look_ahead : forall (sigmas sigmas' : covs) (means means' : mus) (returns ext : rets) c c' slv w items',
    dicts sigmas -> dicts sigmas' -> increasing (forecast_times sigmas') ->
    extends sigmas sigmas' -> extends_opt means means' ->
    from_sigmas sigmas returns means = Ok c -> from_sigmas sigmas' (returns ++ ext) means' = Ok c' ->
    returns_known sigmas returns -> returns_known sigmas' (returns ++ ext) ->
    1 <= w <= length (forecast_times sigmas) - 1 ->
    solve slv c' (Some w) None = (items', None) ->
    exists items more, solve slv c (Some w) None = (items, None) /\ items' = items ++ more /\
                       length items = length (forecast_times sigmas) - w.
  Proof. intros sigmas sigmas' means means' returns ext; exact (no_look_ahead LA sigmas returns means sigmas' ext means'). Qed.

  (** C18.  The problem posed for time t is made of pairs (s, u): the forecasts issued at s are scored on the
      return of u, where u is the next forecast time after s and the last u is t. *)
  Theorem C18_scored_on_the_next_return : forall (sigmas : covs) (returns : rets) (means : mus) c window times todo t p,
    dicts sigmas -> from_sigmas sigmas returns means = Ok c -> increasing (forecast_times sigmas) ->
    prepare LA c window times = Ok todo -> In (t, p) todo ->
    exists pairs, length pairs = eff (length (forecast_times sigmas)) window /\
      (forall s u, In (s, u) pairs -> consecutive (forecast_times sigmas) s u) /\
      (exists a, map snd pairs = sub (scored LA sigmas) a (length pairs)) /\ last (map snd pairs) 0%Z = t /\
      (forall s u, In (s, u) pairs -> In u (map fst returns)) /\
      fst p = pairs_diag LA sigmas pairs /\ l_cholK LA (pairs_quad LA sigmas means returns pairs) = Some (snd p).
  Proof. exact (prepare_pairs LA). Qed.

  (** C23.  [eff N w] is the window in effect; one item per forecast time from position eff N w on. *)
  Theorem C23_schedule : forall (sigmas : covs) (returns : rets) (means : mus) c slv window items,
    dicts sigmas -> from_sigmas sigmas returns means = Ok c ->
    increasing (forecast_times sigmas) -> returns_known sigmas returns ->
    2 <= length (forecast_times sigmas) ->
    solve slv c window None = (items, None) ->
    let N := length (forecast_times sigmas) in
    let w := match window with Some (S k) => Nat.max 1 (Nat.min (S k) (N - 1)) | _ => N - 1 end in
    length items = N - w /\
    forall j r, nth_error items j = Some (Some r) -> r_time LA r = nth (w + j) (forecast_times sigmas) 0%Z.
  Proof.
    intros sigmas returns means c slv window items Hd Hc Hi Hr Hl Hs N w.
    assert (E : w = eff (length (forecast_times sigmas)) window).
    { unfold w, N, eff. destruct window as [[|k]|]; auto. lia. }
    rewrite E. exact (schedule LA sigmas returns means c slv window items Hd Hc Hi Hr Hl Hs).
  Qed.
  Theorem C23_too_short : forall (sigmas : covs) (returns : rets) (means : mus) c slv window,
    dicts sigmas -> from_sigmas sigmas returns means = Ok c -> length (forecast_times sigmas) <= 1 ->
    solve slv c window None = ([], Some IndexError).
  Proof. exact (CombProps.schedule_short LA). Qed.
  Theorem C23_missing_return : forall (sigmas : covs) (returns : rets) (means : mus) c slv window times,
    dicts sigmas -> from_sigmas sigmas returns means = Ok c -> ~ returns_known sigmas returns ->
    solve slv c window times = ([], Some KeyError).
  Proof. exact (missing_return LA). Qed.

  (** C24.  z is the position of the first requested time among the scored times. *)
  Theorem C24_times_agree : forall (sigmas : covs) (returns : rets) (means : mus) c f window items ts z,
    dicts sigmas -> from_sigmas sigmas returns means = Ok c ->
    increasing (forecast_times sigmas) -> returns_known sigmas returns ->
    solve (memoryless f) c window None = (items, None) ->
    ts <> [] -> ts = sub (scored LA sigmas) z (length ts) ->
    let w := eff (length (forecast_times sigmas)) window in
    solve (memoryless f) c window (Some ts) =
      ((if w - 1 <=? z then sub items (z + 1 - w) (length ts) else sub items z (length ts + 1 - w)), None).
  Proof. exact (times_agree LA). Qed.
  Theorem C24_times_errors : forall (sigmas : covs) (returns : rets) (means : mus) c slv window,
    dicts sigmas -> from_sigmas sigmas returns means = Ok c -> returns_known sigmas returns ->
    solve slv c window (Some []) = ([], Some IndexError) /\
    (forall t ts, ~ In t (scored LA sigmas) -> solve slv c window (Some (t :: ts)) = ([], Some KeyError)) /\
    (forall t ts, In t (scored LA sigmas) -> (forall z, t :: ts <> sub (scored LA sigmas) z (length (t :: ts))) ->
        solve slv c window (Some (t :: ts)) = ([], Some AssertionError)).
  Proof. exact (times_errors LA). Qed.

  (** C25.  g fails on some of the problems on which f succeeds. *)
  Theorem C25_failures_isolated : forall (sigmas : covs) (returns : rets) (means : mus) c window times f items,
    dicts sigmas -> from_sigmas sigmas returns means = Ok c ->
    increasing (forecast_times sigmas) -> returns_known sigmas returns ->
    2 <= length (forecast_times sigmas) -> valid_times LA sigmas times ->
    solve (memoryless f) c window times = (items, None) ->
    exists posed_problems, length posed_problems = length items /\
      (forall i p, nth_error posed_problems i = Some p -> (nth_error items i = Some None <-> f p = None)) /\
      forall g, (forall p, g p = None \/ g p = f p) ->
        exists items', solve (memoryless g) c window times = (items', None) /\
          length items' = length items /\
          forall i p, nth_error posed_problems i = Some p ->
            nth_error items' i = match g p with None => Some None | Some _ => nth_error items i end.
  Proof. exact (solver_failures LA). Qed.

  (** C27 *)
  Theorem C27_misaligned : forall (sigmas : covs) (returns : rets) (means : mus),
    dicts sigmas -> means_ok LA sigmas means -> factors_exist LA sigmas -> ~ same_times LA sigmas ->
    from_sigmas sigmas returns means = Raise AttributeError.
  Proof. exact (from_sigmas_misaligned LA). Qed.
  Theorem C27_aligned : forall (sigmas : covs) (returns : rets) (means : mus),
    dicts sigmas -> means_ok LA sigmas means -> factors_exist LA sigmas -> same_times LA sigmas ->
    exists c, from_sigmas sigmas returns means = Ok c /\ K_of LA c = length sigmas.
  Proof.
    intros sigmas returns means H1 H2 H3 H4. exists (built LA sigmas returns means).
    split; [exact (from_sigmas_ok LA sigmas returns means H1 H4 H3 H2)|reflexivity].
  Qed.
  Theorem C27_singular : forall (sigmas : covs) (returns : rets) (means : mus),
    means_ok LA sigmas means -> ~ factors_exist LA sigmas -> from_sigmas sigmas returns means = Raise LinAlgError.
  Proof. exact (from_sigmas_singular LA). Qed.
  Theorem C27_means_mismatch : forall (sigmas : covs) (returns : rets) (m : kdict (tdict (l_vec LA))),
    (forall ks, In ks sigmas -> dict_get String.eqb m (fst ks) <> None) -> ~ means_ok LA sigmas (Some m) ->
    from_sigmas sigmas returns (Some m) = Raise AssertionError.
  Proof. exact (from_sigmas_means_bad LA). Qed.
  Theorem C27_means_missing : forall (sigmas : covs) (returns : rets) (m : kdict (tdict (l_vec LA))),
    (exists ks, In ks sigmas /\ dict_get String.eqb m (fst ks) = None) ->
    (forall ks mk, In ks sigmas -> dict_get String.eqb m (fst ks) = Some mk ->
       forall t, In t (map fst (snd ks)) <-> In t (map fst mk)) ->
    from_sigmas sigmas returns (Some m) = Raise KeyError.
  Proof. exact (from_sigmas_means_missing LA). Qed.

  (** C29 *)
  Theorem C29_means_default : forall (sigmas : covs) (returns : rets), NoDup (map fst sigmas) ->
    from_sigmas sigmas returns (Some (zero_means LA sigmas)) = from_sigmas sigmas returns None.
  Proof. exact (means_default LA). Qed.
End Any.
Print Assumptions C17_no_look_ahead.
Print Assumptions C18_scored_on_the_next_return.
Print Assumptions C23_schedule.
Print Assumptions C23_too_short.
Print Assumptions C23_missing_return.
Print Assumptions C24_times_agree.
Print Assumptions C24_times_errors.
Print Assumptions C25_failures_isolated.
Print Assumptions C27_misaligned.
Print Assumptions C27_aligned.
Print Assumptions C27_singular.
Print Assumptions C27_means_mismatch.
Print Assumptions C27_means_missing.
Print Assumptions C29_means_default.

(** C30.  label: the string f"{a}-{b}"; to_mat, to_vec: reading a frame or Series as an array. *)
Theorem C30_is_from_sigmas : forall (N : Num) (LA : LinAlg) (label : option num * option num -> string)
    (to_mat : frame string -> l_mat LA) (to_vec : vec -> l_vec LA) (returns : frame time) pairs mpv mpc clip_at mean
    (outs : option num * option num -> list IEWMA),
  nisnan nnan = true -> length (findex returns) = length (fvals returns) -> NoDup (findex returns) ->
  (forall p, In p pairs -> iterated_ewma (pair_params mpv mpc clip_at mean p) returns = Ok (outs p)) ->
  exists sigmas means,
    from_ewmas LA label to_mat to_vec returns pairs mpv mpc clip_at mean =
      from_sigmas LA sigmas (rows_of_frame LA to_vec returns) (Some means) /\
    map fst sigmas = firsts (map label pairs) /\ map fst means = firsts (map label pairs) /\
    dicts sigmas /\ dicts means /\
    (forall k, dict_get String.eqb sigmas k =
       last_value (map (fun p => (label p, expert_covs LA to_mat (outs p))) pairs) k) /\
    (forall k, dict_get String.eqb means k =
       last_value (map (fun p => (label p, expert_means LA to_vec (outs p))) pairs) k) /\
    (forall c, from_ewmas LA label to_mat to_vec returns pairs mpv mpc clip_at mean = Ok c ->
       K_of LA c = length (firsts (map label pairs))).
Proof. exact @is_from_sigmas. Qed.
Print Assumptions C30_is_from_sigmas.
Theorem C30_pair_raises : forall (N : Num) (LA : LinAlg) (label : option num * option num -> string)
    (to_mat : frame string -> l_mat LA) (to_vec : vec -> l_vec LA) (returns : frame time) pairs mpv mpc clip_at mean
    p ps ps' e,
  pairs = ps ++ p :: ps' ->
  (forall q, In q ps -> exists o, iterated_ewma (pair_params mpv mpc clip_at mean q) returns = Ok o) ->
  iterated_ewma (pair_params mpv mpc clip_at mean p) returns = Raise e ->
  from_ewmas LA label to_mat to_vec returns pairs mpv mpc clip_at mean = Raise e.
Proof. exact @pair_raises. Qed.
Print Assumptions C30_pair_raises.
Theorem C30_same_schedule : forall (LA : LinAlg) (label : option xr * option xr -> string)
    (to_mat : frame (N := XR) string -> l_mat LA) (to_vec : list xr -> l_vec LA) (returns : frame (N := XR) time)
    (x : nat -> nat -> R) pairs mpv mpc clip_at rc mean,
  valid_returns returns -> returns_are true returns x -> positive_halflives pairs -> clip_is clip_at rc ->
  Nat.max 1 mpv <= length (findex returns) ->
  moved mean x (length (fcols returns)) (first_pos mpv) ->
  exists sigmas means,
    from_ewmas (N := XR) LA label to_mat to_vec returns pairs mpv mpc clip_at mean =
      from_sigmas LA sigmas (rows_of_frame (N := XR) LA to_vec returns) (Some means) /\
    map fst sigmas = firsts (map label pairs) /\ same_times LA sigmas /\
    (forall ks, In ks sigmas -> map fst (snd ks) = skipn (first_pos mpv + first_pos mpc) (findex returns)) /\
    (factors_exist LA sigmas -> exists c,
       from_ewmas (N := XR) LA label to_mat to_vec returns pairs mpv mpc clip_at mean = Ok c /\
       K_of LA c = length (firsts (map label pairs))) /\
    (~ factors_exist LA sigmas ->
       from_ewmas (N := XR) LA label to_mat to_vec returns pairs mpv mpc clip_at mean = Raise LinAlgError).
Proof. exact same_schedule. Qed.
Print Assumptions C30_same_schedule.
Theorem C30_too_short : forall (LA : LinAlg) (label : option xr * option xr -> string)
    (to_mat : frame (N := XR) string -> l_mat LA) (to_vec : list xr -> l_vec LA) (returns : frame (N := XR) time)
    (x : nat -> nat -> R) pairs mpv mpc clip_at rc mean,
  valid_returns returns -> returns_are true returns x -> positive_halflives pairs -> clip_is clip_at rc ->
  pairs <> [] -> length (findex returns) < Nat.max 1 mpv ->
  from_ewmas (N := XR) LA label to_mat to_vec returns pairs mpv mpc clip_at mean = Raise IndexError.
Proof. exact too_short. Qed.
Print Assumptions C30_too_short.

(** ** The hypotheses are met: two assets, two experts (CombEx.v), exact arithmetic, the optimiser [best]. *)
Notation LA2 := (RLA 2 2).
Local Lemma ex0_data N : 2 <= N -> dicts (ex0 N) /\ increasing (SpecComb.forecast_times LA2 (ex0 N)) /\
  SpecComb.returns_known LA2 (ex0 N) (ex0r N) /\ length (SpecComb.forecast_times LA2 (ex0 N)) = N.
Proof.
  intros H. split; [apply ex_dicts; discriminate|]. split; [apply ex_inc|]. split; [apply ex_known|apply ex_len].
Qed.
Example C17_case : exists ext c c' items', dicts (ex0 3) /\ dicts (ex0 5) /\
  increasing (SpecComb.forecast_times LA2 (ex0 5)) /\ extends (ex0 3) (ex0 5) /\ extends_opt (V := l_vec LA2) None None /\
  Combination.from_sigmas LA2 (ex0 3) (ex0r 3) None = Ok c /\ Combination.from_sigmas LA2 (ex0 5) (ex0r 3 ++ ext) None = Ok c' /\
  SpecComb.returns_known LA2 (ex0 3) (ex0r 3) /\ SpecComb.returns_known LA2 (ex0 5) (ex0r 3 ++ ext) /\
  1 <= 2 <= length (SpecComb.forecast_times LA2 (ex0 3)) - 1 /\
  Combination.solve LA2 best c' (Some 2) None = (items', None) /\ length items' = 3.
Proof.
  destruct (ex0_extends 3 5) as (E & ext & Er); [lia|].
  destruct (ex0_data 3) as (D1 & I1 & K1 & L1); [lia|]. destruct (ex0_data 5) as (D2 & I2 & K2 & L2); [lia|].
  destruct (ex0_run 3 2) as (c & it & H1 & _); [lia|]. destruct (ex0_run 5 2) as (c' & items' & H3 & H4 & H5 & _); [lia|].
  exists ext, c, c', items'. rewrite <- Er. repeat (split; [first [assumption|exact I|rewrite L1; lia]|]). rewrite H5. reflexivity.
Qed.
Example C18_case : exists c todo t p, dicts (ex0 5) /\ Combination.from_sigmas LA2 (ex0 5) (ex0r 5) None = Ok c /\
  increasing (SpecComb.forecast_times LA2 (ex0 5)) /\ prepare LA2 c (Some 2) None = Ok todo /\ In (t, p) todo.
Proof.
  destruct (ex0_prepared 5 2) as (c & todo & items & H1 & H2 & H3 & H4 & H5 & H6 & _); [lia|].
  destruct (ex0_data 5) as (D & I & _); [lia|].
  destruct todo as [|[t p] todo]; [congruence|]. exists c, ((t, p) :: todo), t, p. repeat (split; auto). left; auto.
Qed.
Example C23_case : exists c items, dicts (ex0 5) /\ Combination.from_sigmas LA2 (ex0 5) (ex0r 5) None = Ok c /\
  increasing (SpecComb.forecast_times LA2 (ex0 5)) /\ SpecComb.returns_known LA2 (ex0 5) (ex0r 5) /\
  2 <= length (SpecComb.forecast_times LA2 (ex0 5)) /\ Combination.solve LA2 best c (Some 2) None = (items, None) /\ length items = 3.
Proof.
  destruct (ex0_run 5 2) as (c & items & H1 & H2 & H3 & H4); [lia|]. destruct (ex0_data 5) as (D & I & K & L); [lia|].
  exists c, items. repeat (split; auto). rewrite L. lia.
Qed.
Example C23_short_case : exists c, dicts (ex0 1) /\ Combination.from_sigmas LA2 (ex0 1) (ex0r 1) None = Ok c /\
  length (SpecComb.forecast_times LA2 (ex0 1)) <= 1.
Proof.
  exists (built LA2 (ex0 1) (ex0r 1) None). split; [apply ex_dicts; discriminate|]. split.
  - apply from_sigmas_ok; [apply ex_dicts; discriminate|apply ex_same| |exact I].
    apply (CombOk.spd_factors (n := 2) (K := 2)). apply ex0_spd.
  - vm_compute. lia.
Qed.
Example C23_missing_case : exists c, Combination.from_sigmas LA2 (ex0 3) (ex0r 2) None = Ok c /\
  ~ SpecComb.returns_known LA2 (ex0 3) (ex0r 2).
Proof.
  exists (built LA2 (ex0 3) (ex0r 2) None). split.
  - apply from_sigmas_ok; [apply ex_dicts; discriminate|apply ex_same| |exact I].
    apply (CombOk.spd_factors (n := 2) (K := 2)). apply ex0_spd.
  - intros H. assert (In 3%Z (map fst (ex0r 2))) by (apply H; vm_compute; auto). simpl in H0. intuition discriminate.
Qed.
Example C24_case : exists c items, dicts (ex0 5) /\ Combination.from_sigmas LA2 (ex0 5) (ex0r 5) None = Ok c /\
  increasing (SpecComb.forecast_times LA2 (ex0 5)) /\ SpecComb.returns_known LA2 (ex0 5) (ex0r 5) /\
  Combination.solve LA2 (memoryless (best [])) c (Some 2) None = (items, None) /\
  [3; 4]%Z = sub (scored LA2 (ex0 5)) 1 2.
Proof.
  destruct (ex0_run 5 2) as (c & items & H1 & H2 & H3 & H4); [lia|]. destruct (ex0_data 5) as (D & I & K & L); [lia|].
  exists c, items. repeat (split; auto).
Qed.
Example C25_case : exists c items, dicts (ex0 5) /\ Combination.from_sigmas LA2 (ex0 5) (ex0r 5) None = Ok c /\
  increasing (SpecComb.forecast_times LA2 (ex0 5)) /\ SpecComb.returns_known LA2 (ex0 5) (ex0r 5) /\
  2 <= length (SpecComb.forecast_times LA2 (ex0 5)) /\ valid_times LA2 (ex0 5) None /\
  Combination.solve LA2 (memoryless (best [])) c (Some 2) None = (items, None) /\ Forall (fun r => r <> None) items.
Proof.
  destruct (ex0_run 5 2) as (c & items & H1 & H2 & H3 & H4); [lia|]. destruct (ex0_data 5) as (D & I & K & L); [lia|].
  exists c, items. repeat (split; auto); [rewrite L; lia|discriminate|congruence].
Qed.
Definition ex_mis : SpecCombR.covs 2 := [nth 0 (ex0 3) (EmptyString, []); nth 1 (ex0 2) (EmptyString, [])].
Example C27_misaligned_case : dicts ex_mis /\ means_ok LA2 ex_mis None /\ factors_exist LA2 ex_mis /\ ~ same_times LA2 ex_mis.
Proof.
  split; [split; repeat constructor; simpl; intuition discriminate|]. split; [exact I|]. split.
  - apply (CombOk.spd_factors (n := 2) (K := 2)). intros ks tS [<-|[<-|[]]] Ht.
    + eapply (ex_spd (N := 3) (n1 := "a") (n2 := "b") (a := 1) (b := 1) (c := 1) (d := fun _ => 2%R)); try (intros; lra); [left; reflexivity|exact Ht].
    + eapply (ex_spd (N := 2) (n1 := "a") (n2 := "b") (a := 1) (b := 1) (c := 1) (d := fun _ => 2%R)); try (intros; lra); [right; left; reflexivity|exact Ht].
  - intros H. assert (In 3%Z (map fst (snd (nth 1 (ex0 2) (EmptyString, []))))) by (apply H; simpl; auto).
    simpl in H0. intuition discriminate.
Qed.
Example C27_aligned_case : dicts (ex0 4) /\ means_ok LA2 (ex0 4) None /\ factors_exist LA2 (ex0 4) /\ same_times LA2 (ex0 4).
Proof.
  split; [apply ex_dicts; discriminate|]. split; [exact I|]. split; [|apply ex_same].
  apply (CombOk.spd_factors (n := 2) (K := 2)). apply ex0_spd.
Qed.
Example C27_means_case : (forall ks, In ks (ex0 2) -> dict_get String.eqb [("a", []); ("b", [])]%string (fst ks) <> @None (tdict (l_vec LA2))) /\
  ~ means_ok LA2 (ex0 2) (Some [("a", []); ("b", [])]%string).
Proof.
  split; [intros ks [<-|[<-|[]]]; discriminate|]. intros H. destruct (H _ (or_introl eq_refl)) as (mk & E & Hm).
  simpl in E. inversion E; subst. specialize (Hm 1%Z). simpl in Hm. tauto.
Qed.
Example C29_case : NoDup (map fst (ex0 4)).
Proof. apply ex_dicts. discriminate. Qed.

Definition ex_pairs : list (option xr * option xr) := [(Some (Fin 2), Some (Fin 3)); (Some (Fin 1), Some (Fin 2))].
Example C30_case : valid_returns ex_f /\ returns_are true ex_f ex_x /\ positive_halflives ex_pairs /\ clip_is (Some (Fin 3)) (Some 3%R) /\
  Nat.max 1 1 <= length (findex ex_f) /\ moved false ex_x (length (fcols ex_f)) (first_pos 1).
Proof.
  split; [apply ex_valid|]. split; [apply ex_returns|]. split.
  - intros p [<-|[<-|[]]]; [exists 2%R, 3%R|exists 1%R, 2%R]; repeat split; lra.
  - split; [simpl; split; [reflexivity|lra]|]. split; [simpl; lia|]. exists 0, 0. simpl. repeat split; try lia. unfold ex_x; simpl. lra.
Qed.
