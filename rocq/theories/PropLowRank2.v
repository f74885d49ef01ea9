(** * C100, C101: low_rank_iterated_ewma (experiments/utils/low_rank_ewma.py), the whole generator.

    [low_rank_iterated_ewma eigsh P f] is (items yielded, error that ended the run); [eigsh] is the sparse eigen-solver, rank k.
    An item's covariance is the pair (F, d), standing for F F' + diag d; None means that it contains NaN.  The hypotheses common to
    the theorems: valid parameters, finite returns [x], every asset has moved before the first volatility is reported, and there is
    at least one row with a volatility. *)
From Coq Require Import Reals ZArith String List.
Set Warnings "-notation-overridden,-ambiguous-paths".
From mathcomp Require Import all_ssreflect all_algebra.
From Verif Require Import RStruct MatR Num Py Spec SpecEwma Ewma EwmaPrefix Regularization SpecReg LowRankEwma SpecLowRank LowRankPipe
  LowRankProps LowRankPipeProps LowRankPrefix LowRankPipeEx ExEwma.
Set Implicit Arguments.
Unset Strict Implicit.
Unset Printing Implicit Defensive.
Import GRing.Theory.
Local Open Scope ring_scope.
Delimit Scope R_scope with re.

(** The p-th item has the time, mean and volatility of the p-th item of iterated_ewma with the same parameters; its factors differ
    from that item's covariance by a positive semidefinite matrix E whose diagonal is d (so the variances agree exactly), and E = 0
    while the number of rows does not exceed the rank.  The covariance is NaN only where iterated_ewma's is.  No item is skipped;
    a run without error has as many items. *)
Theorem C100_agrees : forall (P : params (N := XR)) (f : frame (N := XR) time) x hv hc h1 h2 rc,
  settings P hv hc h1 h2 rc -> valid_returns f -> returns_are false f x ->
  let n := length (fcols f) in
  (forall j, (j < n)%coq_nat -> exists s, (s <= first_pos (min_periods_vola P))%coq_nat /\ centred (use_mean P) h1 x j s <> IZR 0) ->
  (first_pos (min_periods_vola P) < length (findex f))%coq_nat ->
  forall k (eigsh : eigsh_t n k), eigsh_ok eigsh ->
  let g := low_rank_iterated_ewma eigsh P f in
  exists outs, iterated_ewma P f = Ok outs /\ (size g.1 <= size outs)%N /\ (g.2 = None -> size g.1 = size outs) /\
  forall p it, List.nth_error g.1 p = Some it ->
    exists o, List.nth_error outs p = Some o /\ l_time it = itime o /\ l_mean it = imean o /\ l_vol it = ivol o /\
      match l_cov it with
      | Some (F, d) =>
          exists E, psd E /\ (forall i, d i 0 = E i i) /\ (forall i j : 'I_n, cov_at o i j = Fin ((F *m F^T + E)%R i j)) /\
            (((min_periods_cov P).-1 + p < k)%N -> E = 0)
      | None => exists i : 'I_n, cov_at o i i = NaN
      end.
Proof. exact agrees_main. Qed.
Print Assumptions C100_agrees.

(** If the rank is below the number of assets, the solver answers, and no standardised return after the first row is zero, the run
    has no error. *)
Theorem C100_complete : forall (P : params (N := XR)) (f : frame (N := XR) time) x hv hc h1 h2 rc,
  settings P hv hc h1 h2 rc -> valid_returns f -> returns_are false f x ->
  let n := length (fcols f) in let fp := first_pos (min_periods_vola P) in
  (forall j, (j < n)%coq_nat -> exists s, (s <= fp)%coq_nat /\ centred (use_mean P) h1 x j s <> IZR 0) ->
  (fp < length (findex f))%coq_nat ->
  forall k (eigsh : eigsh_t n k), (0 < k < n)%N -> eigsh_total eigsh ->
  let y := centred (use_mean P) h1 x in
  let v := fun j s => sqrt (winsor_var hv (min_periods_vola P) rc (y j) s) in
  let z := fun j s => standardised rc (y j (fp + s)%N) (v j (fp + s)%N) in
  (forall j i, (j < n)%N -> (0 < i < length (findex f) - fp)%N -> centred (use_mean P) h2 z j i <> IZR 0) ->
  (low_rank_iterated_ewma eigsh P f).2 = None.
Proof. exact complete. Qed.
Print Assumptions C100_complete.

(** The run on the first m rows yields exactly the items that the run on all rows yields for these rows; if it ends with an error,
    so does the run on all rows, at the same place and with the same error. *)
Theorem C101_no_look_ahead : forall (P : params (N := XR)) (f : frame (N := XR) time) x hv hc h1 h2 rc,
  settings P hv hc h1 h2 rc -> valid_returns f -> returns_are false f x ->
  let n := length (fcols f) in let fp := first_pos (min_periods_vola P) in
  (forall j, (j < n)%coq_nat -> exists s, (s <= fp)%coq_nat /\ centred (use_mean P) h1 x j s <> IZR 0) ->
  forall k (eigsh : eigsh_t n k) m, (fp < m <= length (findex f))%N ->
  let g' := @low_rank_iterated_ewma n k eigsh P (frame_take m f) in let g := low_rank_iterated_ewma eigsh P f in
  g'.1 = take (m - fp - (min_periods_cov P).-1) g.1 /\ (g'.2 <> None -> g.1 = g'.1 /\ g.2 = g'.2).
Proof. exact prefix_main. Qed.
Print Assumptions C101_no_look_ahead.

(** Two assets, three days, rank 1 ([lx_f]: returns 1, -1, 2 and 2, 1, -1; half-lives 2 and 3): all hypotheses hold, the run yields
    three items without error, none of them NaN. *)
Example C100_case : settings lx_P 2 3 2 5 None /\ valid_returns lx_f /\ returns_are false lx_f ex_x /\
  (forall j, (j < length (fcols lx_f))%coq_nat ->
     exists s, (s <= first_pos (min_periods_vola lx_P))%coq_nat /\ centred (use_mean lx_P) 2 ex_x j s <> IZR 0) /\
  (first_pos (min_periods_vola lx_P) < length (findex lx_f))%coq_nat /\ eigsh_ok (@eigsh_exact 2 1) /\ eigsh_total (@eigsh_exact 2 1) /\
  let g := low_rank_iterated_ewma (n := 2) (@eigsh_exact 2 1) lx_P lx_f in
  g.2 = None /\ size g.1 = 3%N /\ forall it, List.In it g.1 -> l_cov it <> None.
Proof.
  exact: (conj lx_settings (conj lx_valid (conj lx_ret (conj lx_moved (conj lx_len
    (conj (@eigsh_exact_ok 2 1) (conj (@eigsh_exact_total 2 1 isT) lx_run))))))).
Qed.
