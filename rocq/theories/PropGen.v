(** * Properties of the generative mode of the EWMA (C112, C113).

    Model: Gen.v.  Vocabulary: SpecGen.v ([ewma_of]: weighted second moments of rows; [gaussian]: contract of the sampler). *)
From Coq Require Import Reals List.
Set Warnings "-notation-overridden,-ambiguous-paths".
From mathcomp Require Import all_ssreflect all_algebra.
From Verif Require Import RStruct MatR Num Py Gen SpecGen GenProps GenMain GenEx.
Set Implicit Arguments.
Unset Strict Implicit.
Unset Printing Implicit Defensive.
Import GRing.Theory.
Local Open Scope ring_scope.
Delimit Scope R_scope with re.

(** C112: first the dated estimates of the days seen so far (those with a value), then the numbered samples. *)
Theorem C112_events : forall n T (draw : nat -> 'M[option R]_n -> res 'rV[option R]_n) (data : seq (T * 'rV[option R]_n)) h mp N g,
  h <> 0%re -> (mp <= 1)%N -> (0 < size data)%N ->
  exists xs err, ewma_cov draw data h mp N g =
    ([seq Estimate x.1 x.2 | x <- zip (map fst data) [seq ewma_of h (take t.+1 (map snd data)) | t <- iota 0 (size data)] & ~~ all_nan x.2]
     ++ [seq Sample k (nth (const_mx None) xs k) | k <- iota 0 (size xs)], err) /\
    (size xs <= N)%N /\ (err = None -> size xs = N).
Proof. exact gen_events. Qed.
Print Assumptions C112_events.

(** Without missing returns: one estimate per day, symmetric and positive semidefinite. *)
Theorem C112_finite : forall n T (draw : nat -> 'M[option R]_n -> res 'rV[option R]_n) (data : seq (T * 'rV[option R]_n)) h mp N g ev err,
  h <> 0%re -> (mp <= 1)%N -> (0 < size data)%N -> (0 < n)%N ->
  (forall x, List.In x data -> is_full x.2) -> ewma_cov draw data h mp N g = (ev, err) ->
  map fst (estimates ev) = map fst data /\
  forall t e, List.In (t, e) (estimates ev) -> exists A, full e A /\ A^T = A /\ forall w : 'rV[R]_n, (0 <= (w *m A *m w^T) ord0 ord0)%re.
Proof. exact gen_finite. Qed.
Print Assumptions C112_finite.

(** The errors: any min_periods from 2 on is a ValueError before the first item. *)
Theorem C112_errors : forall n T (draw : nat -> 'M[option R]_n -> res 'rV[option R]_n) (data : seq (T * 'rV[option R]_n)) h mp N g,
  (h = 0%re -> ewma_cov draw data h mp N g = ([::], Some TypeError)) /\
  (h <> 0%re -> data = [::] -> ewma_cov draw data h mp N g = ([::], Some IndexError)) /\
  (h <> 0%re -> data <> [::] -> (2 <= mp)%N -> ewma_cov draw data h mp N g = ([::], Some ValueError)).
Proof. exact gen_errors. Qed.
Print Assumptions C112_errors.

(** C113: sample k is drawn with the EWMA over the data and the k rows fed back, which are the earlier samples, or the
    first k rows of the given data. *)
Theorem C113_samples : forall n T (draw : nat -> 'M[option R]_n -> res 'rV[option R]_n) (data : seq (T * 'rV[option R]_n)) h mp N g ev err,
  h <> 0%re -> (mp <= 1)%N -> (0 < size data)%N -> ewma_cov draw data h mp N g = (ev, err) ->
  let xs := samples ev in let sigma k := ewma_of h (map snd data ++ take k (if g is Some rows then rows else xs)) in
  (forall k, (k < size xs)%N -> draw k (sigma k) = Ok (nth (const_mx None) xs k)) /\
  (size xs = N /\ err = None \/ (size xs < N)%N /\
   ((exists2 e, err = Some e & draw (size xs) (sigma (size xs)) = Raise e) \/ (err = Some IndexError /\ exists2 rows, g = Some rows & size rows = size xs))).
Proof. exact gen_samples. Qed.
Print Assumptions C113_samples.

Theorem C113_total : forall n T (draw : nat -> 'M[option R]_n -> res 'rV[option R]_n) (data : seq (T * 'rV[option R]_n)) h mp N g ev err,
  gaussian draw -> h <> 0%re -> (mp <= 1)%N -> (0 < size data)%N ->
  (forall x, List.In x data -> is_full x.2) -> (forall rows x, g = Some rows -> List.In x rows -> is_full x) ->
  ewma_cov draw data h mp N g = (ev, err) ->
  (forall k, (k < size (samples ev))%N -> is_full (nth (const_mx None) (samples ev) k)) /\
  match g with
  | None => size (samples ev) = N /\ err = None
  | Some rows => size (samples ev) = minn N (size rows) /\ err = (if (N <= size rows)%N then None else Some IndexError)
  end.
Proof. exact gen_total. Qed.
Print Assumptions C113_total.

(** One missing return anywhere in the data: nothing can be sampled. *)
Theorem C113_missing : forall n T (draw : nat -> 'M[option R]_n -> res 'rV[option R]_n) (data : seq (T * 'rV[option R]_n)) h mp N g,
  gaussian draw -> h <> 0%re -> (mp <= 1)%N -> (0 < N)%N ->
  (exists2 x, List.In x data & ~ is_full x.2) ->
  samples (ewma_cov draw data h mp N g).1 = [::] /\ (ewma_cov draw data h mp N g).2 = Some LinAlgError.
Proof. exact gen_missing. Qed.
Print Assumptions C113_missing.

(** A portfolio that earned nothing on every day of the data earns nothing on every generated day. *)
Theorem C113_span : forall n T (draw : nat -> 'M[option R]_n -> res 'rV[option R]_n) (data : seq (T * 'rV[option R]_n)) h mp N g ev err (w : 'rV[R]_n),
  gaussian draw -> h <> 0%re -> (mp <= 1)%N -> (0 < size data)%N ->
  (forall x, List.In x data -> earns x.2 w 0%re) -> (forall rows x, g = Some rows -> List.In x rows -> earns x w 0%re) ->
  ewma_cov draw data h mp N g = (ev, err) -> forall k, (k < size (samples ev))%N -> earns (nth (const_mx None) (samples ev) k) w 0%re.
Proof. exact gen_span. Qed.
Print Assumptions C113_span.

(** Asking for more samples only appends. *)
Theorem C113_prefix : forall n T (draw : nat -> 'M[option R]_n -> res 'rV[option R]_n) (data : seq (T * 'rV[option R]_n)) h mp N N' g,
  h <> 0%re -> (mp <= 1)%N -> (0 < size data)%N -> (N <= N')%N ->
  samples (ewma_cov draw data h mp N g).1 = take N (samples (ewma_cov draw data h mp N' g).1).
Proof. exact gen_prefix. Qed.
Print Assumptions C113_prefix.

(** Sample c does not look at row c or later rows of the data fed in. *)
Theorem C113_no_look_ahead : forall n T (draw : nat -> 'M[option R]_n -> res 'rV[option R]_n) (data : seq (T * 'rV[option R]_n)) h mp N (g g' : seq 'rV[option R]_n) c,
  h <> 0%re -> (mp <= 1)%N -> (0 < size data)%N -> take c g = take c g' -> (c < size g)%N -> (c < size g')%N ->
  take c.+1 (samples (ewma_cov draw data h mp N (Some g)).1) = take c.+1 (samples (ewma_cov draw data h mp N (Some g')).1).
Proof. exact gen_future. Qed.
Print Assumptions C113_no_look_ahead.

(** ** Concrete cases *)
Example ex_gaussian : forall n, gaussian (@mean_draw n).
Proof. exact mean_draw_ok. Qed.
Example ex_gaussian1 : gaussian up_draw.
Proof. exact up_draw_ok. Qed.
Example ex_gen : ewma_cov up_draw [:: (7%N, const_mx (Some 2%re))] 1 1 1 None =
  ([:: Estimate 7%N (const_mx (Some 4%re)); Sample 0 (const_mx (Some 2%re))], None).
Proof. exact gen_example. Qed.
Example ex_gap : forall draw, let ev := (ewma_cov draw [:: (1%N, gappy 1); (2%N, gappy 2)] 1 0 0 None).1 in
  exists e1 e2, ev = [:: Estimate 1%N e1; Estimate 2%N e2] /\ e1 ord0 ord0 = Some 1%re /\ e2 ord0 ord0 = Some 3%re /\ e2 ord0 ord_max = None.
Proof. exact gap_example. Qed.
(** A portfolio as in C113_span: long one and short the other of two equal assets. *)
Example ex_span : earns (const_mx (Some 2%re) : 'rV[option R]_2) (\row_j (if j == ord0 then 1 else - 1)%R) 0%re.
Proof. exact span_example. Qed.
