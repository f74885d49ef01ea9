(** * Vocabulary of the ewma.py property theorems.

    These definitions only describe inputs and read off outputs; they use none of the recursions of the
    model. *)
From Coq Require Import String Reals List ZArith Arith.
From Verif Require Import Num Py Ewma Spec.
Import ListNotations.
Local Open Scope R_scope.

(** A frame of returns as the library expects it: rectangular, strictly increasing index, some asset. *)
Definition valid_returns {N : Num} (f : frame time) : Prop :=
  wf_frame f /\ increasing (findex f) /\ fcols f <> [].

(** Value of asset j at row position k. *)
Definition entry (f : frame time) (k j : nat) : xr := nth j (nth k (fvals f) []) NaN.

(** [f] holds the finite returns [x j k] (asset j, row k); entries may be missing only if NaN filling is
    on, and then count as 0. *)
Definition returns_are (fill : bool) (f : frame time) (x : nat -> nat -> R) : Prop :=
  forall k j, (k < length (findex f))%nat -> (j < length (fcols f))%nat ->
    entry f k j = Fin (x j k) \/ (entry f k j = NaN /\ fill = true /\ x j k = 0).

(** Optional half-life argument given, positive. *)
Definition halflife_is (o : option xr) (h : R) : Prop := o = Some (Fin h) /\ 0 < h.
(** Optional half-life with a default (None and 0 select the default). *)
Definition halflife_or (o : option xr) (dflt h : R) : Prop :=
  ((o = None \/ o = Some (Fin 0)) /\ h = dflt) \/ halflife_is o h.
(** clip_at: None and 0 mean no clipping. *)
Definition clip_is (o : option xr) (rc : option R) : Prop :=
  match rc with
  | None => o = None \/ o = Some (Fin 0)
  | Some c => o = Some (Fin c) /\ c <> 0
  end.

(** Parameters of iterated_ewma: half-lives of volatility, covariance and the two means, clip level. *)
Definition settings (P : params (N := XR)) (hv hc h1 h2 : R) (rc : option R) : Prop :=
  halflife_is (vola_halflife P) hv /\ halflife_is (cov_halflife P) hc /\
  halflife_or (mu_halflife1 P) hv h1 /\ halflife_or (mu_halflife2 P) hc h2 /\
  clip_is (p_clip_at P) rc.

(** Entries of an IEWMA item. *)
Definition cov_at (o : IEWMA (N := XR)) (p q : nat) : xr := nth q (nth p (fvals (icov o)) []) NaN.
Definition vol_at (o : IEWMA (N := XR)) (p : nat) : xr := nth p (ivol o) NaN.
Definition mean_at (o : IEWMA (N := XR)) (p : nat) : xr := nth p (imean o) NaN.

(** Real value of a number (0 for the non-finite ones). *)
Definition xval (x : xr) : R := match x with Fin r => r | _ => 0 end.

(** First row position at which a minimum-periods requirement is met. *)
Definition first_pos (min_periods : nat) : nat := min_periods - 1.

(** Returns after the optional subtraction of their EWMA mean (half-life h). *)
Definition centred (mean : bool) (h : R) (x : nat -> nat -> R) (j k : nat) : R :=
  if mean then x j k - ewavg (decay h) (x j) k else x j k.

(** m is the first row in which one of the n assets has a non-zero value. *)
Definition first_move (x : nat -> nat -> R) (n m : nat) : Prop :=
  (exists j, (j < n)%nat /\ x j m <> 0) /\ forall j s, (j < n)%nat -> (s < m)%nat -> x j s = 0.

(** Limit an extended real to [-a, a]; NaN stays NaN. *)
Definition limit (a : R) (x : xr) : xr :=
  match x with
  | Fin r => Fin (Rmax (- a) (Rmin a r))
  | PInf => Fin a
  | NInf => Fin (- a)
  | NaN => NaN
  end.

(** Rows of a frame that contain at least one number. *)
Definition rows_with_data (f : frame time) : list (time * list xr) :=
  filter (fun p => negb (forallb xisnan (snd p))) (combine (findex f) (fvals f)).

(** Every missing value replaced by 0. *)
Definition zero_filled {N : Num} (f : frame time) : frame time :=
  mkFrame (findex f) (fcols f) (map (map (fun x => if nisnan x then n0 else x)) (fvals f)).

(** The same parameters with another NaN policy. *)
Definition with_nan_to_num {N : Num} (b : bool) (P : params) : params :=
  mkParams (vola_halflife P) (cov_halflife P) (min_periods_vola P) (min_periods_cov P) (use_mean P)
    (mu_halflife1 P) (mu_halflife2 P) (p_clip_at P) b.

(** Standard deviation around zero: root of the EWMA of squares. *)
Definition ewstd (h : R) (y : nat -> R) (k : nat) : R := sqrt (ewavg (decay h) (fun s => y s ^ 2) k).

(** Columns taken in the order [p]. *)
Definition reorder {A} (p : list nat) (d : A) (l : list A) : list A := map (fun q => nth q l d) p.
Definition reorder_frame {N : Num} (p : list nat) (f : frame time) : frame time :=
  mkFrame (findex f) (reorder p EmptyString (fcols f)) (map (reorder p n0) (fvals f)).
Definition reorder_item {N : Num} (p : list nat) (o : IEWMA) : IEWMA :=
  mkIEWMA (itime o) (reorder p n0 (imean o))
    (mkFrame (reorder p EmptyString (findex (icov o))) (reorder p EmptyString (fcols (icov o)))
       (reorder p [] (map (reorder p n0) (fvals (icov o)))))
    (reorder p n0 (ivol o)).

(** Shape of an item for assets [cols]. *)
Definition well_shaped {N : Num} (cols : list string) (o : IEWMA) : Prop :=
  length (imean o) = length cols /\ length (ivol o) = length cols /\
  findex (icov o) = cols /\ fcols (icov o) = cols /\ wf_frame (icov o).

(** Asset j multiplied by [s j]. *)
Definition times (s : R) (x : xr) : xr := xmul (Fin s) x.
Definition rescaled (s : nat -> R) (f g : frame time) : Prop :=
  findex g = findex f /\ fcols g = fcols f /\ wf_frame g /\
  forall k j, (k < length (findex f))%nat -> (j < length (fcols f))%nat -> entry g k j = times (s j) (entry f k j).
Definition rescaled_item (s : nat -> R) (o o' : IEWMA (N := XR)) : Prop :=
  itime o' = itime o /\ findex (icov o') = findex (icov o) /\ fcols (icov o') = fcols (icov o) /\
  forall j, (j < length (fcols (icov o)))%nat ->
    mean_at o' j = times (s j) (mean_at o j) /\ vol_at o' j = times (s j) (vol_at o j) /\
    forall q, (q < length (fcols (icov o)))%nat -> cov_at o' j q = times (s j * s q) (cov_at o j q).

(** Two runs: both raise the same exception, or both succeed with item lists related by [rel]. *)
Definition same_run {A B} (rel : A -> B -> Prop) (r : res (list A)) (r' : res (list B)) : Prop :=
  match r, r' with
  | Ok l, Ok l' => Forall2 rel l l'
  | Raise e, Raise e' => e = e'
  | _, _ => False
  end.

(** Variance estimate (half-life h) from the squares of y: ordinary EWMA for the first mp + 1 observations; later
    observations count at most as c^2 times the current estimate (no limit without c). *)
Fixpoint winsor_var (h : R) (mp : nat) (rc : option R) (y : nat -> R) (k : nat) : R :=
  match k with
  | O => y 0%nat ^ 2
  | S k' =>
      let e := winsor_var h mp rc y k' in
      let w := eweight (decay h) k k in
      let u := match rc with Some c => if (k <=? mp)%nat then y k ^ 2 else Rmin (y k ^ 2) (c ^ 2 * e) | None => y k ^ 2 end in
      (1 - w) * e + w * u
  end.

(** y / v, limited to [-|c|, |c|]; 0 if undefined. *)
Definition standardised (rc : option R) (y v : R) : R :=
  xval (match rc with Some c => limit (Rabs c) (xdiv (Fin y) (Fin v)) | None => xdiv (Fin y) (Fin v) end).
