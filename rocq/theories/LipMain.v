(** * C140: the statements, and a concrete case. *)
From Coq Require Import String Reals Lra Psatz List Bool ZArith Arith Lia.
From Verif Require Import Num Py ListFacts Ewma Spec SpecEwma EwmaReal EwmaClosed EwmaProps EwmaProps3 ExEwma CmPos ClipMono RoundLip SpecForget ForgetReal ForgetRun ForgetEx LipRun.
Import ListNotations.
Local Open Scope R_scope.

Theorem vol_lipschitz f f' x y h mp e : valid_returns f -> valid_returns f' -> findex f' = findex f -> fcols f' = fcols f ->
  returns_are false f x -> returns_are false f' y -> 0 < h -> (0 < length (findex f))%nat ->
  (forall j k, (j < length (fcols f))%nat -> (k < length (findex f))%nat -> Rabs (x j k - y j k) <= e) ->
  exists v v', volatility f (Some (Fin h)) mp None = Ok v /\ volatility f' (Some (Fin h)) mp None = Ok v' /\
    findex v = skipn (first_pos mp) (findex f) /\ findex v' = findex v /\
    forall k j, (first_pos mp + k < length (findex f))%nat -> (j < length (fcols f))%nat ->
      exists s s', entry v k j = Fin s /\ entry v' k j = Fin s' /\ Rabs (s - s') <= e.
Proof.
  intros Hf Hf' EI EC Hx Hy Hh HT HD. assert (LF : length (fvals f) = length (findex f)) by (symmetry; apply Hf). assert (LF' : length (fvals f') = length (findex f')) by (symmetry; apply Hf').
  assert (N1 : fvals f <> []) by (intros E; rewrite E in LF; change (0 = length (findex f))%nat in LF; lia).
  assert (N2 : fvals f' <> []) by (intros E; rewrite E in LF'; rewrite EI in LF'; change (0 = length (findex f))%nat in LF'; lia).
  destruct (volatility_path f x h mp None None Hf Hx N1 Hh ltac:(left; auto)) as (v & V1 & V2 & V3 & V4).
  destruct (volatility_path f' y h mp None None Hf' Hy N2 Hh ltac:(left; auto)) as (v' & W1 & W2 & W3 & W4).
  exists v, v'. split; [exact V1|]. split; [exact W1|]. split; [exact V3|]. split; [rewrite W3, V3, EI; reflexivity|]. intros k j Hk Hj.
  assert (E1 := V4 (first_pos mp + k)%nat j ltac:(lia) Hj). assert (E2 := W4 (first_pos mp + k)%nat j ltac:(rewrite EI; lia) ltac:(rewrite EC; exact Hj)).
  replace (first_pos mp + k - first_pos mp)%nat with k in * by lia.
  eexists; eexists. split; [exact E1|]. split; [exact E2|]. rewrite !winsor_none by exact Hh. apply ewstd_lip; [exact Hh|]. intros s Hs. apply HD; [exact Hj|lia].
Qed.

Theorem items_lipschitz (P : params (N := XR)) f f' x y hv hc h1 h2 M w g e :
  let p := first_pos (min_periods_vola P) in let q := first_pos (min_periods_cov P) in
  let n := length (fcols f) in let T := length (findex f) in
  settings P hv hc h1 h2 None -> use_mean P = false -> valid_returns f -> valid_returns f' -> findex f' = findex f -> fcols f' = fcols f ->
  returns_are (nan_to_num P) f x -> returns_are (nan_to_num P) f' y -> (p + q < T)%nat -> 0 < w -> 0 < g ->
  (forall j k, (j < n)%nat -> (k < T)%nat -> Rabs (x j k) <= M /\ Rabs (y j k) <= M /\ Rabs (x j k - y j k) <= e) ->
  (forall j k, (j < n)%nat -> (p <= k < T)%nat -> w <= ewstd hv (x j) k /\ w <= ewstd hv (y j) k) ->
  (forall j i, (j < n)%nat -> (q <= i)%nat -> (p + i < T)%nat -> g <= std_moment hv hc p x i j j /\ g <= std_moment hv hc p y i j j) ->
  exists outs outs', iterated_ewma P f = Ok outs /\ iterated_ewma P f' = Ok outs' /\
    map itime outs = skipn (p + q) (findex f) /\ map itime outs' = map itime outs /\
    forall m o o', nth_error outs m = Some o -> nth_error outs' m = Some o' -> forall a b, (a < n)%nat -> (b < n)%nat ->
      exists s s' c c', vol_at o a = Fin s /\ vol_at o' a = Fin s' /\ cov_at o a b = Fin c /\ cov_at o' a b = Fin c' /\
        Rabs (s - s') <= e /\ Rabs (c - c') <= 10 * M * (M / w) ^ 5 / g ^ 2 * e.
Proof.
  intros p q n T HS Em Hf Hf' EI EC Hx Hy HT W0 G0 HM HW HG.
  assert (Hn : (0 < n)%nat) by (destruct Hf as (_ & _ & H); unfold n; destruct (fcols f); [congruence|simpl; lia]).
  destruct (real_run P f x hv hc h1 h2 HS Em Hf Hx HT) as (outs & O1 & O2 & O3).
  { intros j k Hj Hk. destruct (HW j k Hj Hk). lra. } { intros j i Hj Hi1 Hi2. destruct (HG j i Hj Hi1 Hi2). fold p. lra. }
  destruct (real_run P f' y hv hc h1 h2 HS Em Hf' Hy) as (outs' & Q1 & Q2 & Q3).
  { rewrite EI. exact HT. } { rewrite EI, EC. intros j k Hj Hk. destruct (HW j k Hj Hk). lra. } { rewrite EI, EC. intros j i Hj Hi1 Hi2. destruct (HG j i Hj Hi1 Hi2). fold p. lra. }
  fold p q in Q2, Q3, O2, O3. rewrite EI, EC in Q3. exists outs, outs'. split; [exact O1|]. split; [exact Q1|]. split; [exact O2|]. split; [rewrite Q2, O2, EI; reflexivity|].
  intros m o o' Ho Ho' a b Ha Hb. destruct (O3 _ _ Ho) as (L1 & I1). destruct (Q3 _ _ Ho') as (_ & I2). destruct (I1 a b Ha Hb) as (V1 & C1). destruct (I2 a b Ha Hb) as (V2 & C2).
  do 4 eexists. split; [exact V1|]. split; [exact V2|]. split; [exact C1|]. split; [exact C2|]. assert (Hv : 0 < hv) by apply HS. assert (Hc : 0 < hc) by apply HS. fold T in L1. split.
  - apply ewstd_lip; [exact Hv|]. intros s Hs. apply HM; [exact Ha|lia].
  - apply (cov_lip x y hv hc M w g e p q n T Hv Hc W0 G0 Hn); try lia; try exact Ha; try exact Hb.
    all: try (intros; apply HM; assumption). all: try (intros; apply HW; assumption). all: intros; apply HG; assumption.
Qed.

(** Five days of two assets of volatilities 1 and 2, and the same with the first asset half as large again. *)
Definition lp_y (j k : nat) : R := match j with O => 3 / 2 | _ => fg_x j k end.
Definition lp_f : frame (N := XR) time := mkFrame [1;2;3;4;7]%Z ["A";"B"]%string
  [[Fin (3 / 2); Fin 2]; [Fin (3 / 2); Fin (-2)]; [Fin (3 / 2); Fin 2]; [Fin (3 / 2); Fin 2]; [Fin (3 / 2); Fin (-2)]].
Lemma lp_sq j k : lp_y j k ^ 2 = (if j then 3 / 2 else 2) ^ 2.
Proof. destruct j as [|j]; [reflexivity|]. apply (fg_sq (S j) k). Qed.
Lemma lp_vol j k : ewstd 2 (lp_y j) k = if j then 3 / 2 else 2.
Proof.
  unfold ewstd. rewrite (EwmaClosed.ewavg_ext _ _ (fun _ => (if j then 3 / 2 else 2) ^ 2)) by (intros s _; apply lp_sq). rewrite ewavg_const by (apply decay_bounds; lra).
  apply sqrt_pow2. destruct j; lra.
Qed.
Lemma lp_mom p i j : std_moment 2 3 p lp_y i j j = 1.
Proof.
  unfold std_moment. rewrite (EwmaClosed.ewavg_ext _ _ (fun _ => 1)).
  - apply ewavg_const. apply decay_bounds; lra.
  - intros s _. unfold std_return. rewrite lp_vol. transitivity (lp_y j (p + s)%nat ^ 2 / (if j then 3 / 2 else 2) ^ 2); [destruct j; field|]. rewrite lp_sq. destruct j; field.
Qed.
Lemma lp_case : let P := ex_P false 2 1 None true in let p := first_pos (min_periods_vola P) in let q := first_pos (min_periods_cov P) in
  settings P 2 3 2 5 None /\ use_mean P = false /\ valid_returns fg_f /\ valid_returns lp_f /\ findex lp_f = findex fg_f /\ fcols lp_f = fcols fg_f /\
  returns_are (nan_to_num P) fg_f fg_x /\ returns_are (nan_to_num P) lp_f lp_y /\ returns_are false fg_f fg_x /\ returns_are false lp_f lp_y /\
  (p + q < length (findex fg_f))%nat /\
  (forall j k, (j < 2)%nat -> (k < 5)%nat -> Rabs (fg_x j k) <= 2 /\ Rabs (lp_y j k) <= 2 /\ Rabs (fg_x j k - lp_y j k) <= / 2) /\
  (forall j k, (j < 2)%nat -> (p <= k < 5)%nat -> 1 <= ewstd 2 (fg_x j) k /\ 1 <= ewstd 2 (lp_y j) k) /\
  (forall j i, (j < 2)%nat -> (q <= i)%nat -> (p + i < 5)%nat -> 1 <= std_moment 2 3 p fg_x i j j /\ 1 <= std_moment 2 3 p lp_y i j j).
Proof.
  intros P p q. assert (R0 : forall b, returns_are b fg_f fg_x) by (intros b k j Hk Hj; simpl in Hk, Hj; destruct j as [|[|j]]; [| |lia]; destruct k as [|[|[|[|[|k]]]]]; try lia; simpl; auto).
  assert (R1 : forall b, returns_are b lp_f lp_y) by (intros b k j Hk Hj; simpl in Hk, Hj; destruct j as [|[|j]]; [| |lia]; destruct k as [|[|[|[|[|k]]]]]; try lia; simpl; auto).
  split; [apply ex_settings|]. split; [reflexivity|].
  split; [split; [split; [reflexivity|repeat constructor]|]; split; [simpl; lia|discriminate]|]. split; [split; [split; [reflexivity|repeat constructor]|]; split; [simpl; lia|discriminate]|].
  split; [reflexivity|]. split; [reflexivity|]. split; [apply R0|]. split; [apply R1|]. split; [apply R0|]. split; [apply R1|].
  split; [cbn; lia|]. split; [intros j k Hj Hk; repeat split; apply Rabs_le; destruct j as [|[|j]]; try lia; unfold lp_y, fg_x; destruct k as [|[|[|[|[|k]]]]]; lra|].
  split; [intros j k _ _; rewrite fg_vol0, lp_vol; destruct j; lra|].
  intros j i _ _ _. rewrite lp_mom. split; [right; symmetry; exact (fg_mom 0 p i j)|lra].
Qed.
