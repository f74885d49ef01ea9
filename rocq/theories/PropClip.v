(** * C137: a tighter clip_at never raises a volatility, and leaves ordinary data alone.

    Words used: [tighter] (SpecClip.v); [ewavg], [decay] (Spec.v); [settings], [returns_are], [vol_at] (SpecEwma.v). *)
From Coq Require Import String Reals Lra List Bool ZArith Arith Lia.
From Verif Require Import Num Py Ewma Spec SpecEwma EwmaReal SpecClip ClipMono ClipEx ExEwma.
Import ListNotations.
Local Open Scope R_scope.

(** C137 (volatility): the same returns under a tighter limit give a volatility at most as large, everywhere. *)
Theorem C137_volatility : forall (f : frame time) (x : nat -> nat -> R) (h : R) (mp : nat) (o o' : option xr) (rc rc' : option R),
  valid_returns f -> returns_are false f x -> fvals f <> [] -> 0 < h -> clip_is o rc -> clip_is o' rc' -> tighter rc rc' ->
  exists v v', volatility f (Some (Fin h)) mp o = Ok v /\ volatility f (Some (Fin h)) mp o' = Ok v' /\ findex v = findex v' /\
    forall k j, (k < length (findex v))%nat -> (j < length (fcols f))%nat ->
      exists s s', entry v k j = Fin s /\ entry v' k j = Fin s' /\ 0 <= s <= s'.
Proof. exact vol_mono. Qed.
Print Assumptions C137_volatility.
(** A jump of 10 after two returns of 1: with the limit 1 the volatility is strictly lower than without. *)
Example C137_volatility_case : valid_returns cl_f /\ returns_are false cl_f cl_x /\ fvals cl_f <> [] /\ clip_is (Some (Fin 1)) (Some 1) /\
  clip_is None None /\ tighter (Some 1) None /\
  exists v v' s s', volatility cl_f (Some (Fin 2)) 1 (Some (Fin 1)) = Ok v /\ volatility cl_f (Some (Fin 2)) 1 None = Ok v' /\
    entry v 2 0 = Fin s /\ entry v' 2 0 = Fin s' /\ s < s'.
Proof. exact cl_case. Qed.

(** C137 (ordinary data): as long as every later return is at most c times the unclipped volatility just before it,
    clipping at c changes nothing. *)
Theorem C137_ordinary_data : forall (f : frame time) (x : nat -> nat -> R) (h : R) (mp : nat) (c : R) (j : nat),
  valid_returns f -> returns_are false f x -> fvals f <> [] -> 0 < h -> c <> 0 -> (j < length (fcols f))%nat ->
  exists v v', volatility f (Some (Fin h)) mp (Some (Fin c)) = Ok v /\ volatility f (Some (Fin h)) mp None = Ok v' /\ findex v = findex v' /\
    forall k, (first_pos mp + k < length (findex f))%nat ->
      (forall s, (mp <= s)%nat -> (s < first_pos mp + k)%nat -> x j (S s) ^ 2 <= c ^ 2 * ewavg (decay h) (fun t => x j t ^ 2) s) ->
      entry v k j = entry v' k j.
Proof. exact vol_idle. Qed.
Print Assumptions C137_ordinary_data.
Example C137_ordinary_case : valid_returns ex_g /\ returns_are false ex_g ex_x /\ fvals ex_g <> [] /\ (first_pos 1 + 2 < length (findex ex_g))%nat /\
  (forall s, (1 <= s)%nat -> (s < first_pos 1 + 2)%nat -> ex_x 0 (S s) ^ 2 <= 3 ^ 2 * ewavg (decay 2) (fun t => ex_x 0 t ^ 2) s).
Proof. exact cl_ordinary. Qed.

(** C137 (iterated_ewma): two runs on the same returns that differ in clip_at (and in the covariance parameters, even) yield
    at a common date volatilities in the same order as their limits. *)
Theorem C137_items : forall (P P' : params) (f : frame time) (x : nat -> nat -> R) (hv hc hc' h1 h2 h2' : R) (rc rc' : option R)
    (outs outs' : list IEWMA) (o o' : IEWMA) (p : nat),
  settings P hv hc h1 h2 rc -> settings P' hv hc' h1 h2' rc' -> tighter rc rc' ->
  use_mean P = use_mean P' -> min_periods_vola P = min_periods_vola P' -> nan_to_num P = nan_to_num P' ->
  valid_returns f -> returns_are (nan_to_num P) f x -> iterated_ewma P f = Ok outs -> iterated_ewma P' f = Ok outs' ->
  In o outs -> In o' outs' -> itime o = itime o' -> (p < length (fcols f))%nat ->
  exists s s', vol_at o p = Fin s /\ vol_at o' p = Fin s' /\ 0 <= s <= s'.
Proof. exact items_mono. Qed.
Print Assumptions C137_items.
Example C137_items_case : settings (ex_P false 1 1 (Some (Fin 3)) true) 2 3 2 5 (Some 3) /\ settings (ex_P false 1 1 None true) 2 3 2 5 None /\
  valid_returns ex_f /\ returns_are true ex_f ex_x /\
  exists outs outs' o o', iterated_ewma (ex_P false 1 1 (Some (Fin 3)) true) ex_f = Ok outs /\ iterated_ewma (ex_P false 1 1 None true) ex_f = Ok outs' /\
    In o outs /\ In o' outs' /\ itime o = itime o'.
Proof. exact cl_items. Qed.
