(** * Properties of cvx/covariance/ewma.py (C01 - C15, C55).

    Model: Ewma.v.  Vocabulary: Spec.v, SpecEwma.v, [frame_take] in EwmaPrefix.v.  Theorems quantified
    over [N : Num] hold for every arithmetic (floating point included); those about [XR] are about exact
    arithmetic with NaN and infinities. *)
From Coq Require Import String Reals Lra Psatz List Bool ZArith Arith Lia Permutation Sorted.
From Verif Require Import Num Py Ewma EwmaPrefix Spec SpecEwma EwmaProps EwmaProps2 EwmaProps3 EwmaFirst EwmaProps4 EwmaProps5 EwmaClosed EwmaAny ExEwma.
Import ListNotations.
Local Open Scope R_scope.

(** C01.  [frame_take k f] is the frame of the first k rows. *)
Theorem C01_no_look_ahead : forall (N : Num) (P : params) (f : frame time) (k : nat),
  nisnan nnan = true -> length (findex f) = length (fvals f) -> NoDup (findex f) ->
  match iterated_ewma P (frame_take k f) with
  | Ok outs => exists more, iterated_ewma P f = Ok (outs ++ more) /\
                            Forall (fun o => In (itime o) (skipn k (findex f))) more
  | Raise e => forall outs, iterated_ewma P f = Ok outs ->
                            e = IndexError /\ Forall (fun o => In (itime o) (skipn k (findex f))) outs
  end.
Proof. exact @no_look_ahead. Qed.
Print Assumptions C01_no_look_ahead.
Example C01_case : exists outs, iterated_ewma (ex_P false 1 1 None true) (frame_take 5 ex_f) = Ok outs /\ length outs = 5%nat.
Proof.
  destruct (ex_run_false None None 1 1) as (outs & H & E); [lia|lia|auto|]. exists outs. split; [exact H|].
  rewrite <- (map_length itime), E. reflexivity.
Qed.

(** C02 *)
Theorem C02_ewma_closed_form : forall f x h mp,
  valid_returns f -> returns_are false f x -> fvals f <> [] -> 0 < h ->
  (exists v, volatility f (Some (Fin h)) mp None = Ok v /\ fcols v = fcols f /\
    findex v = skipn (first_pos mp) (findex f) /\
    (forall k j, (first_pos mp <= k < length (findex f))%nat -> (j < length (fcols f))%nat ->
       entry v (k - first_pos mp) j = Fin (sqrt (ewavg (decay h) (fun s => x j s ^ 2) k)))) /\
  (exists d m, center f (Some (Fin h)) mp true = Ok (d, m) /\ fcols m = fcols f /\
    findex m = skipn (first_pos mp) (findex f) /\
    (forall k j, (first_pos mp <= k < length (findex f))%nat -> (j < length (fcols f))%nat ->
       entry m (k - first_pos mp) j = Fin (ewavg (decay h) (x j) k))).
Proof. exact ewma_closed_form. Qed.
Print Assumptions C02_ewma_closed_form.
Example C02_case : valid_returns ex_g /\ returns_are false ex_g ex_x /\ fvals ex_g <> [] /\ 0 < 2.
Proof. split; [apply ex_valid|]. split; [apply ex_returns_g|]. split; [discriminate|lra]. Qed.

(** C03: one family of weights W k s (age k - s), depending on the half-life only, serves volatility and
    mean; halving after h periods; constants are reproduced. *)
Theorem C03_halflife_weights : forall h, 0 < h ->
  exists W : nat -> nat -> R,
    (forall k s, (s <= k)%nat -> 0 < W k s) /\
    (forall k s, (s < k)%nat -> W k s < W k (S s)) /\
    (forall k, rsum (S k) (W k) = 1) /\
    (forall k s d, (s + d <= k)%nat -> W k s = W k (s + d)%nat * Rpower 2 (- (INR d / h))) /\
    (forall k s d, (s + d <= k)%nat -> INR d = h -> W k s = W k (s + d)%nat / 2) /\
    (forall f x mp, valid_returns f -> returns_are false f x -> fvals f <> [] ->
       (exists v, volatility f (Some (Fin h)) mp None = Ok v /\
          forall k j, (first_pos mp <= k < length (findex f))%nat -> (j < length (fcols f))%nat ->
            entry v (k - first_pos mp) j = Fin (sqrt (rsum (S k) (fun s => W k s * x j s ^ 2)))) /\
       (exists d m, center f (Some (Fin h)) mp true = Ok (d, m) /\
          forall k j, (first_pos mp <= k < length (findex f))%nat -> (j < length (fcols f))%nat ->
            entry m (k - first_pos mp) j = Fin (rsum (S k) (fun s => W k s * x j s)))).
Proof. exact halflife_weights. Qed.
Print Assumptions C03_halflife_weights.
Theorem C03_constant_reproduced : forall h f mp c, 0 < h -> valid_returns f -> fvals f <> [] ->
  returns_are false f (fun j _ => c j) ->
  exists v d m, volatility f (Some (Fin h)) mp None = Ok v /\ center f (Some (Fin h)) mp true = Ok (d, m) /\
    forall k j, (first_pos mp <= k < length (findex f))%nat -> (j < length (fcols f))%nat ->
      entry v (k - first_pos mp) j = Fin (Rabs (c j)) /\
      entry m (k - first_pos mp) j = Fin (c j) /\ entry d (k - first_pos mp) j = Fin 0.
Proof. exact constant_reproduced. Qed.
Print Assumptions C03_constant_reproduced.
Example C03_case : valid_returns exc_f /\ fvals exc_f <> [] /\ returns_are false exc_f (fun j _ => INR (S j)).
Proof. exact exc_ok. Qed.

(** C04 *)
Theorem C04_schedule : forall P f x hv hc h1 h2 rc,
  settings P hv hc h1 h2 rc -> valid_returns f -> returns_are (nan_to_num P) f x ->
  (Nat.max 1 (min_periods_vola P) <= length (findex f))%nat ->
  (exists j s, (j < length (fcols f))%nat /\ (s <= first_pos (min_periods_vola P))%nat /\
               centred (use_mean P) h1 x j s <> 0) ->
  exists outs, iterated_ewma P f = Ok outs /\
    map itime outs = skipn (first_pos (min_periods_vola P) + first_pos (min_periods_cov P)) (findex f).
Proof. exact schedule_full. Qed.
Print Assumptions C04_schedule.
Theorem C04_too_short : forall P f x hv hc h1 h2 rc,
  settings P hv hc h1 h2 rc -> valid_returns f -> returns_are (nan_to_num P) f x ->
  (length (findex f) < Nat.max 1 (min_periods_vola P))%nat -> iterated_ewma P f = Raise IndexError.
Proof. exact schedule_short. Qed.
Print Assumptions C04_too_short.
(** Without clipping: if no asset moves during the warm-up, the output starts at the first move; m is the first row with a
    (centred) move. *)
Theorem C04_first_move : forall P f x hv hc h1 h2 m,
  settings P hv hc h1 h2 None -> valid_returns f -> returns_are (nan_to_num P) f x ->
  first_move (centred (use_mean P) h1 x) (length (fcols f)) m ->
  (Nat.max (first_pos (min_periods_vola P)) m < length (findex f))%nat ->
  exists outs, iterated_ewma P f = Ok outs /\
    map itime outs = skipn (Nat.max (first_pos (min_periods_vola P)) m + first_pos (min_periods_cov P)) (findex f).
Proof. intros P f x hv hc h1 h2 m HS Hf Hx. exact (schedule_first P f x hv hc h1 h2 HS Hf Hx m). Qed.
Print Assumptions C04_first_move.
(** Assets that never move: no volatility, no output. *)
Theorem C04_never_moved : forall P f x hv hc h1 h2,
  settings P hv hc h1 h2 None -> valid_returns f -> returns_are (nan_to_num P) f x ->
  (forall j s, (j < length (fcols f))%nat -> (s < length (findex f))%nat -> centred (use_mean P) h1 x j s = 0) ->
  iterated_ewma P f = Raise IndexError.
Proof. exact schedule_none. Qed.
Print Assumptions C04_never_moved.
(** Whatever the data, times are emitted in order and never before the two warm-ups are over. *)
Theorem C04_never_early : forall P f x hv hc h1 h2 rc,
  settings P hv hc h1 h2 rc -> valid_returns f -> returns_are (nan_to_num P) f x ->
  forall outs, iterated_ewma P f = Ok outs ->
  increasing (map itime outs) /\
  Forall (fun t => In t (skipn (first_pos (min_periods_vola P) + first_pos (min_periods_cov P)) (findex f)))
    (map itime outs).
Proof. exact schedule_any. Qed.
Print Assumptions C04_never_early.
Example C04_case : settings (ex_P false 2 2 None true) 2 3 2 5 None /\ valid_returns ex_f /\
  returns_are true ex_f ex_x /\ (Nat.max 1 2 <= length (findex ex_f))%nat /\
  (exists j s, (j < length (fcols ex_f))%nat /\ (s <= first_pos 2)%nat /\ centred false 2 ex_x j s <> 0) /\
  exists outs, iterated_ewma (ex_P false 2 2 None true) ex_f = Ok outs /\ map itime outs = [3;4;7]%Z.
Proof.
  split; [apply ex_settings|]. split; [apply ex_valid|]. split; [apply ex_returns|]. split; [simpl; lia|].
  split; [exists 0%nat, 0%nat; simpl; repeat split; try lia; unfold ex_x; simpl; lra|].
  apply (ex_run_false None None 2 2); auto.
Qed.
Definition ex_zero : frame (N := XR) time := mkFrame (N := XR) [1;2;3]%Z ["a"; "b"]%string (map (map Fin) [[0;0];[0;0];[0;0]]%R).
Example C04_case_never : settings (ex_P false 1 1 None true) 2 3 2 5 None /\ valid_returns ex_zero /\
  returns_are true ex_zero (fun _ _ => 0) /\
  (forall j s, (j < length (fcols ex_zero))%nat -> (s < length (findex ex_zero))%nat -> centred false 2 (fun _ _ => 0) j s = 0).
Proof.
  split; [apply ex_settings|]. split; [|split; [|intros; reflexivity]].
  { split; [split; [reflexivity|repeat constructor]|split; [simpl; lia|discriminate]]. }
  intros k j Hk Hj. left. simpl in Hk, Hj. do 3 (destruct k as [|k]; [do 2 (destruct j as [|j]; [reflexivity|]); lia|]). lia.
Qed.
Example C04_case_short : settings (ex_P false 6 2 None true) 2 3 2 5 None /\
  (length (findex ex_f) < Nat.max 1 6)%nat.
Proof. split; [apply ex_settings|simpl; lia]. Qed.
Definition ex_still : frame (N := XR) time :=
  mkFrame (N := XR) [1;2;3;4;7]%Z ["a"; "b"]%string (map (map Fin) [[0;0];[0;0];[0;1];[2;1];[1;0]]%R).
Definition ex_still_x (j k : nat) : R := nth j (nth k [[0;0];[0;0];[0;1];[2;1];[1;0]]%R []) 0%R.
Example C04_case_first : settings (ex_P false 2 2 None true) 2 3 2 5 None /\ valid_returns ex_still /\
  returns_are true ex_still ex_still_x /\ first_move (centred false 2 ex_still_x) (length (fcols ex_still)) 2 /\
  (Nat.max (first_pos 2) 2 < length (findex ex_still))%nat /\
  skipn (Nat.max (first_pos 2) 2 + first_pos 2) (findex ex_still) = [4;7]%Z.
Proof.
  split; [apply ex_settings|]. split.
  { split; [split; [reflexivity|repeat constructor]|split; [simpl; lia|discriminate]]. }
  split.
  { intros k j Hk Hj. left. simpl in Hk, Hj. do 5 (destruct k as [|k]; [do 2 (destruct j as [|j]; [reflexivity|]); lia|]). lia. }
  split; [|split; [simpl; lia|reflexivity]].
  split.
  - exists 1%nat. split; [simpl; lia|]. unfold ex_still_x; simpl. lra.
  - intros j s Hj Hs. simpl in Hj. do 2 (destruct s as [|s]; [do 2 (destruct j as [|j]; [reflexivity|]); lia|]). lia.
Qed.

(** C05 *)
Theorem C05_covariance_structure : forall P f x hv hc h1 h2 rc,
  settings P hv hc h1 h2 rc -> valid_returns f -> returns_are (nan_to_num P) f x ->
  forall outs o, iterated_ewma P f = Ok outs -> In o outs ->
  let n := length (fcols f) in
    (forall p q, (p < n)%nat -> (q < n)%nat -> cov_at o p q = cov_at o q p) /\
    (forall p, (p < n)%nat -> exists v, vol_at o p = Fin v /\ 0 <= v /\ (cov_at o p p = NaN \/ cov_at o p p = Fin (v * v))) /\
    (forall p q, (p < n)%nat -> (q < n)%nat ->
       (cov_at o p q = NaN <-> cov_at o p p = NaN \/ cov_at o q q = NaN) /\
       (forall s vp vq, cov_at o p q = Fin s -> vol_at o p = Fin vp -> vol_at o q = Fin vq -> - (vp * vq) <= s <= vp * vq) /\
       (exists s, cov_at o p q = NaN \/ cov_at o p q = Fin s)) /\
    (forall z : nat -> R, (forall p, (p < n)%nat -> cov_at o p p = NaN -> z p = 0) ->
       0 <= rsum n (fun p => rsum n (fun q => z p * z q * xval (cov_at o p q)))).
Proof. exact covariance_structure. Qed.
Print Assumptions C05_covariance_structure.
Example C05_case : settings (ex_P false 2 2 (Some (Fin 3)) true) 2 3 2 5 (Some 3) /\ valid_returns ex_f /\
  returns_are true ex_f ex_x /\
  exists outs, iterated_ewma (ex_P false 2 2 (Some (Fin 3)) true) ex_f = Ok outs /\ map itime outs = [3;4;7]%Z.
Proof.
  split; [apply ex_settings_clip|]. split; [apply ex_valid|]. split; [apply ex_returns|].
  apply (ex_run_false (Some (Fin 3)) (Some 3) 2 2); auto.
Qed.

(** C06 *)
Theorem C06_nan_pattern : forall P f x hv hc h1 h2 rc,
  settings P hv hc h1 h2 rc -> valid_returns f -> returns_are (nan_to_num P) f x ->
  forall outs o k p q, use_mean P = false ->
  iterated_ewma P f = Ok outs -> In o outs -> (k < length (findex f))%nat -> itime o = nth k (findex f) 0%Z ->
  (p < length (fcols f))%nat -> (q < length (fcols f))%nat ->
  (cov_at o p q = NaN <->
     (forall s, (first_pos (min_periods_vola P) <= s <= k)%nat -> x p s = 0) \/
     (forall s, (first_pos (min_periods_vola P) <= s <= k)%nat -> x q s = 0)) /\
  (cov_at o p q <> NaN -> exists r, cov_at o p q = Fin r).
Proof. exact nan_pattern. Qed.
Print Assumptions C06_nan_pattern.
Example C06_case : use_mean (ex_P false 2 1 None true) = false /\ exists outs o,
  iterated_ewma (ex_P false 2 1 None true) ex_f = Ok outs /\ In o outs /\ itime o = nth 3 (findex ex_f) 0%Z.
Proof.
  split; [reflexivity|]. destruct (ex_run_false None None 2 1) as (outs & H & E); [lia|lia|auto|].
  exists outs. assert (Hin : In 4%Z (map itime outs)) by (rewrite E; simpl; auto).
  apply in_map_iff in Hin. destruct Hin as (o & Ho & Hi). exists o. auto.
Qed.

(** C07 *)
Theorem C07_nan_is_zero_fill : forall (N : Num) (P : params) (f : frame time), nan_to_num P = true ->
  iterated_ewma P f = iterated_ewma (with_nan_to_num false P) (zero_filled f).
Proof. exact @nan_is_zero_fill. Qed.
Print Assumptions C07_nan_is_zero_fill.
Theorem C07_fill_first : forall (N : Num) (P : params) (f : frame time), nan_to_num P = true -> nisnan n0 = false ->
  iterated_ewma P f = iterated_ewma P (zero_filled f).
Proof. exact @nan_fill_twice. Qed.
Print Assumptions C07_fill_first.
Example C07_case : nan_to_num (ex_P false 2 1 None true) = true /\ zero_filled ex_f = ex_g /\ ex_f <> ex_g.
Proof. split; [reflexivity|]. split; [reflexivity|discriminate]. Qed.

(** C08 *)
Theorem C08_nan_poisons : forall P f outs o p k j q,
  valid_returns f -> nan_to_num P = false -> iterated_ewma P f = Ok outs -> In o outs ->
  (j < length (fcols f))%nat -> (p <= k)%nat -> (k < length (findex f))%nat ->
  entry f p j = NaN -> itime o = nth k (findex f) 0%Z ->
  vol_at o j = NaN /\ cov_at o j q = NaN /\ cov_at o q j = NaN /\ (use_mean P = true -> mean_at o j = NaN).
Proof. exact poison. Qed.
Print Assumptions C08_nan_poisons.
Example C08_case : valid_returns exn_f /\ nan_to_num exn_P = false /\ entry exn_f 0 0 = NaN /\ entry exn_f 1 0 = Fin 1 /\
  exists outs o, iterated_ewma exn_P exn_f = Ok outs /\ In o outs /\ itime o = nth 1 (findex exn_f) 0%Z.
Proof. split; [apply exn_valid|]. split; [reflexivity|]. split; [reflexivity|]. split; [reflexivity|]. exact exn_run. Qed.

(** C09: w is the weight of the new observation. *)
Theorem C09_winsorised_step : forall f x h mp c v k j a b',
  valid_returns f -> returns_are false f x -> 0 < h -> c <> 0 ->
  volatility f (Some (Fin h)) mp (Some (Fin c)) = Ok v ->
  (mp <= k)%nat -> (S k < length (findex f))%nat -> (j < length (fcols f))%nat ->
  entry v (k - first_pos mp) j = Fin a -> entry v (S k - first_pos mp) j = Fin b' ->
  let w := eweight (decay h) (S k) (S k) in
  0 < w < 1 /\ 0 <= a /\ 0 <= b' /\
  (1 - w) * a ^ 2 <= b' ^ 2 <= (1 + w * (c ^ 2 - 1)) * a ^ 2 /\
  (Rabs (x j (S k)) <= Rabs c * a -> b' ^ 2 = (1 - w) * a ^ 2 + w * x j (S k) ^ 2).
Proof. exact winsor_step. Qed.
Print Assumptions C09_winsorised_step.
(** The whole path: the first mp + 1 observations are not limited; every later square counts at most c^2 times the
    current variance. *)
Theorem C09_path : forall f x h mp o rc,
  valid_returns f -> returns_are false f x -> fvals f <> [] -> 0 < h -> clip_is o rc ->
  exists v, volatility f (Some (Fin h)) mp o = Ok v /\ fcols v = fcols f /\
    findex v = skipn (first_pos mp) (findex f) /\
    (forall k j, (first_pos mp <= k < length (findex f))%nat -> (j < length (fcols f))%nat ->
       entry v (k - first_pos mp) j = Fin (sqrt (winsor_var h mp rc (x j) k))).
Proof. exact volatility_path. Qed.
Print Assumptions C09_path.
Theorem C09_warm_up_not_limited : forall h mp c y k, 0 < h -> c <> 0 -> (k <= mp)%nat ->
  winsor_var h mp (Some c) y k = ewavg (decay h) (fun s => y s ^ 2) k.
Proof. exact winsor_early. Qed.
Print Assumptions C09_warm_up_not_limited.
Example C09_case : exists v a b', volatility ex_g (Some (Fin 2)) 1 (Some (Fin 3)) = Ok v /\
  entry v (1 - first_pos 1) 0 = Fin a /\ entry v (2 - first_pos 1) 0 = Fin b'.
Proof. exact ex_vol. Qed.

(** C10 *)
Theorem C10_trap : forall P f x hv hc h1 h2 rc,
  settings P hv hc h1 h2 rc -> valid_returns f -> returns_are (nan_to_num P) f x ->
  forall c outs o j, rc = Some c ->
  iterated_ewma P f = Ok outs -> In o outs -> (j < length (fcols f))%nat ->
  (forall s, (s <= min_periods_vola P)%nat -> centred (use_mean P) h1 x j s = 0) ->
  vol_at o j = Fin 0 /\
  forall q, (q < length (fcols f))%nat ->
    (cov_at o j q = NaN \/ cov_at o j q = Fin 0) /\ (cov_at o q j = NaN \/ cov_at o q j = Fin 0).
Proof. exact trap_iterated. Qed.
Print Assumptions C10_trap.
Theorem C10_trap_volatility : forall f x h mp c v k j,
  valid_returns f -> returns_are false f x -> 0 < h -> c <> 0 ->
  volatility f (Some (Fin h)) mp (Some (Fin c)) = Ok v ->
  (j < length (fcols f))%nat -> (first_pos mp <= k < length (findex f))%nat ->
  (forall s, (s <= mp)%nat -> x j s = 0) ->
  entry v (k - first_pos mp) j = Fin 0.
Proof. exact winsor_trap. Qed.
Print Assumptions C10_trap_volatility.
Theorem C10_no_trap_without_clip : forall f x h mp v k j,
  valid_returns f -> returns_are false f x -> 0 < h ->
  volatility f (Some (Fin h)) mp None = Ok v ->
  (j < length (fcols f))%nat -> (first_pos mp <= k < length (findex f))%nat ->
  (exists s, (s <= k)%nat /\ x j s <> 0) ->
  exists a, entry v (k - first_pos mp) j = Fin a /\ 0 < a.
Proof. exact unclipped_positive. Qed.
Print Assumptions C10_no_trap_without_clip.
Example C10_case : settings (ex_P false 1 1 (Some (Fin 3)) true) 2 3 2 5 (Some 3) /\ valid_returns ext_f /\
  returns_are true ext_f ext_x /\ (forall s, (s <= 1)%nat -> centred false 2 ext_x 0 s = 0) /\ ext_x 0 2 = 5 /\
  exists outs, iterated_ewma (ex_P false 1 1 (Some (Fin 3)) true) ext_f = Ok outs /\ map itime outs = [1;2;3]%Z.
Proof.
  split; [apply ex_settings_clip|]. split; [apply ext_valid|]. split; [apply ext_returns|].
  split; [|split; [reflexivity|exact ext_run]]. intros [|[|s]] Hs; try reflexivity. lia.
Qed.

(** C11 *)
Theorem C11_clip : forall f c, c <> 0 ->
  fcols (clip f (Some (Fin c))) = fcols f /\
  combine (findex (clip f (Some (Fin c)))) (fvals (clip f (Some (Fin c)))) =
  map (fun p => (fst p, map (limit (Rabs c)) (snd p))) (rows_with_data f).
Proof. exact clip_explicit. Qed.
Print Assumptions C11_clip.
Theorem C11_clip_none : forall f o, o = None \/ o = Some (Fin 0) ->
  fcols (clip f o) = fcols f /\ combine (findex (clip f o)) (fvals (clip f o)) = rows_with_data f.
Proof. exact clip_nothing. Qed.
Print Assumptions C11_clip_none.
Theorem C11_clip_sign : forall f c, c <> 0 -> clip f (Some (Fin (- c))) = clip f (Some (Fin c)).
Proof. exact clip_sign. Qed.
Print Assumptions C11_clip_sign.
Theorem C11_clip_idempotent : forall f c, c <> 0 -> length (findex f) = length (fvals f) ->
  clip (clip f (Some (Fin c))) (Some (Fin c)) = clip f (Some (Fin c)).
Proof. exact clip_idem. Qed.
Print Assumptions C11_clip_idempotent.
(** [limit a] leaves values inside [-a, a] alone. *)
Theorem C11_limit_inside : forall a r, - a <= r <= a -> limit a (Fin r) = Fin r.
Proof. exact limit_inside. Qed.
Print Assumptions C11_limit_inside.
Example C11_case : rows_with_data exl_f = [(1%Z, [NaN; Fin 5])] /\ length (findex exl_f) = 2%nat.
Proof. split; reflexivity. Qed.

(** C12 *)
Theorem C12_center : forall f x h mp,
  valid_returns f -> returns_are false f x -> fvals f <> [] -> 0 < h ->
  exists d m, center f (Some (Fin h)) mp true = Ok (d, m) /\
    fcols d = fcols f /\ fcols m = fcols f /\
    findex d = skipn (first_pos mp) (findex f) /\ findex m = skipn (first_pos mp) (findex f) /\
    (forall k j, (first_pos mp <= k < length (findex f))%nat -> (j < length (fcols f))%nat ->
       entry m (k - first_pos mp) j = Fin (ewavg (decay h) (x j) k) /\
       entry d (k - first_pos mp) j = Fin (x j k - ewavg (decay h) (x j) k)).
Proof. exact center_explicit. Qed.
Print Assumptions C12_center.
Theorem C12_center_off : forall f x (o : option xr) mp,
  valid_returns f -> returns_are false f x ->
  exists m, center f o mp false = Ok (f, m) /\ findex m = findex f /\ fcols m = fcols f /\
    forall k j, (k < length (findex f))%nat -> (j < length (fcols f))%nat -> entry m k j = Fin 0.
Proof. exact center_off. Qed.
Print Assumptions C12_center_off.
Theorem C12_first_row_zero : forall h x j, 0 < h -> centred true h x j 0 = 0.
Proof. exact first_row_zero. Qed.
Print Assumptions C12_first_row_zero.
Example C12_case : valid_returns ex_g /\ returns_are false ex_g ex_x /\ fvals ex_g <> [].
Proof. split; [apply ex_valid|]. split; [apply ex_returns_g|discriminate]. Qed.

(** C13 *)
Theorem C13_asset_order : forall (N : Num) (P : params) (f : frame time) p, nisnan nnan = true -> valid_returns f ->
  Permutation p (seq 0 (length (fcols f))) ->
  iterated_ewma P (reorder_frame p f) =
  match iterated_ewma P f with Ok outs => Ok (map (reorder_item p) outs) | Raise e => Raise e end.
Proof. exact @reorder_run. Qed.
Print Assumptions C13_asset_order.
Example C13_case : valid_returns ex_f /\ Permutation [1; 0]%nat (seq 0 (length (fcols ex_f))) /\
  reorder_frame [1; 0]%nat ex_f <> ex_f.
Proof. split; [apply ex_valid|]. split; [apply perm_swap|discriminate]. Qed.

(** C14 *)
Theorem C14_unit_invariance : forall P f g s, (forall j, 0 < s j) -> valid_returns f -> rescaled s f g ->
  same_run (rescaled_item s) (iterated_ewma P f) (iterated_ewma P g).
Proof. exact rescale_run. Qed.
Print Assumptions C14_unit_invariance.
Example C14_case : rescaled (fun j => INR (S j)) ex_g ex_g2 /\ ex_g2 <> ex_g.
Proof. exact ex_rescaled. Qed.

(** C15 *)
Theorem C15_first_covariance_nan : forall P f x hv hc h1 h2 rc,
  settings P hv hc h1 h2 rc -> valid_returns f -> returns_are (nan_to_num P) f x ->
  forall outs o rest p q, use_mean P = true -> (min_periods_cov P <= 1)%nat ->
  iterated_ewma P f = Ok outs -> outs = o :: rest ->
  (p < length (fcols f))%nat -> (q < length (fcols f))%nat -> cov_at o p q = NaN.
Proof. exact first_cov_nan. Qed.
Print Assumptions C15_first_covariance_nan.
Theorem C15_nan_iff_constant : forall P f x hv hc h1 h2 rc,
  settings P hv hc h1 h2 rc -> valid_returns f -> returns_are (nan_to_num P) f x ->
  forall outs o k p, use_mean P = true -> rc = None ->
  (exists j s, (j < length (fcols f))%nat /\ (s <= first_pos (min_periods_vola P))%nat /\ centred true h1 x j s <> 0) ->
  iterated_ewma P f = Ok outs -> In o outs -> (k < length (findex f))%nat -> itime o = nth k (findex f) 0%Z ->
  (p < length (fcols f))%nat ->
  (cov_at o p p = NaN <->
   exists c, forall s, (first_pos (min_periods_vola P) <= s <= k)%nat ->
     centred true h1 x p s / ewstd hv (centred true h1 x p) s = c).
Proof. exact mean_nan_iff. Qed.
Print Assumptions C15_nan_iff_constant.
Example C15_case : settings (ex_P true 2 1 None true) 2 3 2 5 None /\
  (exists j s, (j < 2)%nat /\ (s <= first_pos 2)%nat /\ centred true 2 ex_x j s <> 0) /\
  exists outs, iterated_ewma (ex_P true 2 1 None true) ex_f = Ok outs /\ map itime outs = [2;3;4;7]%Z.
Proof.
  split; [apply ex_settings|]. split; [exists 0%nat, 1%nat; split; [lia|]; split; [unfold first_pos; lia|apply ex_centred]|].
  apply (ex_run_true 1); lia.
Qed.

(** C61: every number in every item, in terms of the data.  y: centred returns; v: volatilities; z: standardised returns
    (z p 0 belongs to the first row with volatilities); a: centred again; c: their EWMA second moments.  Hypothesis: some
    asset moves during the volatility warm-up (otherwise leading rows are dropped). *)
Theorem C61_items : forall P f x hv hc h1 h2 rc,
  settings P hv hc h1 h2 rc -> valid_returns f -> returns_are (nan_to_num P) f x ->
  let n := length (fcols f) in
  let first := first_pos (min_periods_vola P) in
  forall outs o k,
  (exists j s, (j < n)%nat /\ (s <= first)%nat /\ centred (use_mean P) h1 x j s <> 0) ->
  iterated_ewma P f = Ok outs -> In o outs -> (k < length (findex f))%nat -> itime o = nth k (findex f) 0%Z ->
  let y := centred (use_mean P) h1 x in
  let v := fun j s => sqrt (winsor_var hv (min_periods_vola P) rc (y j) s) in
  let z := fun j s => standardised rc (y j (first + s)%nat) (v j (first + s)%nat) in
  let a := centred (use_mean P) h2 z in
  let c := fun p q => ewavg (decay hc) (fun s => a p s * a q s) (k - first) in
  forall p, (p < n)%nat ->
    vol_at o p = Fin (v p k) /\
    mean_at o p = Fin (if use_mean P then ewavg (decay h1) (x p) k + v p k * ewavg (decay h2) (z p) (k - first) else 0) /\
    forall q, (q < n)%nat ->
      (c p p <> 0 -> c q q <> 0 -> cov_at o p q = Fin (v p k * v q k * (c p q / sqrt (c p p * c q q)))) /\
      (c p p = 0 \/ c q q = 0 -> cov_at o p q = NaN).
Proof. exact items_closed. Qed.
Print Assumptions C61_items.
Example C61_case : settings (ex_P true 2 1 None true) 2 3 2 5 None /\
  (exists j s, (j < 2)%nat /\ (s <= first_pos 2)%nat /\ centred true 2 ex_x j s <> 0) /\
  exists outs o, iterated_ewma (ex_P true 2 1 None true) ex_f = Ok outs /\ In o outs /\ itime o = nth 3 (findex ex_f) 0%Z.
Proof.
  split; [apply ex_settings|]. split; [exists 0%nat, 1%nat; split; [lia|]; split; [unfold first_pos; lia|apply ex_centred]|].
  destruct (ex_run_true 1) as (outs & H & E); [lia|].
  assert (Hin : In 4%Z (map itime outs)) by (rewrite E; simpl; auto).
  apply in_map_iff in Hin. destruct Hin as (o & Ho & Hi). exists outs, o. auto.
Qed.

(** C61, C04, C06, C15 for every run on finite data.  rows: the row positions, from the end of the volatility warm-up on, in
    which some asset has a volatility or a (centred) return other than 0; the other rows are dropped.  The i-th item
    belongs to row number (first_pos min_periods_cov + i) of rows; z and a are indexed by the position in rows. *)
Theorem C61_every_run : forall P f x hv hc h1 h2 rc,
  settings P hv hc h1 h2 rc -> valid_returns f -> returns_are (nan_to_num P) f x ->
  let n := length (fcols f) in
  let y := centred (use_mean P) h1 x in
  let v := fun j s => sqrt (winsor_var hv (min_periods_vola P) rc (y j) s) in
  exists rows : list nat,
    StronglySorted lt rows /\
    (forall k, In k rows <-> (first_pos (min_periods_vola P) <= k < length (findex f))%nat /\
       exists j, (j < n)%nat /\ (v j k <> 0 \/ y j k <> 0)) /\
    (rows = [] -> iterated_ewma P f = Raise IndexError) /\
    (rows <> [] -> exists outs, iterated_ewma P f = Ok outs /\
       map itime outs = map (fun k => nth k (findex f) 0%Z) (skipn (first_pos (min_periods_cov P)) rows) /\
       forall i o, nth_error outs i = Some o ->
       let r := (first_pos (min_periods_cov P) + i)%nat in
       let k := nth r rows 0%nat in
       let z := fun j s => standardised rc (y j (nth s rows 0%nat)) (v j (nth s rows 0%nat)) in
       let a := centred (use_mean P) h2 z in
       let c := fun p q => ewavg (decay hc) (fun s => a p s * a q s) r in
       forall p, (p < n)%nat ->
         vol_at o p = Fin (v p k) /\
         mean_at o p = Fin (if use_mean P then ewavg (decay h1) (x p) k + v p k * ewavg (decay h2) (z p) r else 0) /\
         forall q, (q < n)%nat ->
           ((exists s, (s <= r)%nat /\ a p s <> 0) -> (exists s, (s <= r)%nat /\ a q s <> 0) ->
              0 < c p p /\ 0 < c q q /\ cov_at o p q = Fin (v p k * v q k * (c p q / sqrt (c p p * c q q)))) /\
           ((forall s, (s <= r)%nat -> a p s = 0) \/ (forall s, (s <= r)%nat -> a q s = 0) -> cov_at o p q = NaN)).
Proof. exact run_total. Qed.
Print Assumptions C61_every_run.
(** The first two rows of ex_still have no move, so they are dropped although the warm-up needs one row only. *)
Example C61_every_run_case : settings (ex_P true 1 1 (Some (Fin 3)) true) 2 3 2 5 (Some 3) /\ valid_returns ex_still /\
  returns_are true ex_still ex_still_x /\ ex_still_x 0 1 = 0 /\ ex_still_x 1 1 = 0 /\ ex_still_x 1 2 = 1.
Proof.
  split; [apply ex_settings_clip|]. split.
  { split; [split; [reflexivity|repeat constructor]|split; [simpl; lia|discriminate]]. }
  split; [|repeat split; reflexivity].
  intros k j Hk Hj. left. simpl in Hk, Hj. do 5 (destruct k as [|k]; [do 2 (destruct j as [|j]; [reflexivity|]); lia|]). lia.
Qed.

(** C55 *)
Theorem C55_shapes : forall (N : Num) (P : params) (f : frame time) outs o, nisnan nnan = true -> valid_returns f ->
  iterated_ewma P f = Ok outs -> In o outs -> well_shaped (fcols f) o.
Proof. exact @out_shape. Qed.
Print Assumptions C55_shapes.
Example C55_case : exists outs o, iterated_ewma (ex_P true 2 1 None true) ex_f = Ok outs /\ In o outs.
Proof.
  destruct (ex_run_true 1) as (outs & H & E); [lia|]. exists outs. destruct outs as [|o l]; [discriminate|].
  exists o. simpl; auto.
Qed.
