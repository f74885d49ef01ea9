(** * C139: covariances saved as upper triangles come back (large_universes.ipynb). *)
From Coq Require Import String List ZArith Arith Reals.
From Verif Require Import Num Py CovCsv SpecCsv CovCsvProps.
Import ListNotations.

(** C139 (round trip): whatever numbers the matrices hold (NaN included) and whatever a written number is read back as ([rt]), the
    dates come back in order, the labels are the given ones, entry (i, j) is the read-back upper entry (min i j, max i j). *)
Theorem C139_round_trip : forall (N : Num) (rt : num -> num) (covs : list (time * frame string)) (assets : list string) (n : nat),
  (Z.of_nat (n * (n + 1)) < 2 ^ 53)%Z -> length assets = n -> Forall (fun c => square n (snd c)) covs ->
  (do file <- save_cov_to_csv covs; from_csv_to_cov rt file assets) =
  Ok (map (fun c => (fst c, mkFrame assets assets (map (fun i => map (fun j => rt (cell (snd c) (Nat.min i j) (Nat.max i j))) (seq 0 n)) (seq 0 n)))) covs).
Proof. exact @csv_round_trip. Qed.
Print Assumptions C139_round_trip.
(** C139 (symmetric): symmetric matrices come back unchanged when every number is read back as it was written. *)
Theorem C139_symmetric : forall (N : Num) (covs : list (time * frame string)) (assets : list string) (n : nat),
  (Z.of_nat (n * (n + 1)) < 2 ^ 53)%Z -> length assets = n -> Forall (fun c => square n (snd c)) covs ->
  Forall (fun c => forall i j, (i < n)%nat -> (j < n)%nat -> cell (snd c) i j = cell (snd c) j i) covs ->
  (do file <- save_cov_to_csv covs; from_csv_to_cov (fun x => x) file assets) = Ok (map (fun c => (fst c, mkFrame assets assets (fvals (snd c)))) covs).
Proof. exact @csv_symmetric. Qed.
Print Assumptions C139_symmetric.
(** C139 (size): int(np.sqrt(2*len)), computed in binary64, is the number of assets. *)
Theorem C139_size : forall n : nat, (Z.of_nat (n * (n + 1)) < 2 ^ 53)%Z -> side_of (n * (n + 1) / 2) = n.
Proof. exact side_tri. Qed.
Print Assumptions C139_size.
(** C139 (refusals): a row that is not a triangle, and labels of the wrong number, raise ValueError. *)
Theorem C139_bad_length : forall (N : Num) (v : list num), (forall n, length v <> n * (n + 1) / 2)%nat -> from_upper_triangular_to_full v = Raise ValueError.
Proof. exact @csv_bad_length. Qed.
Print Assumptions C139_bad_length.
Theorem C139_bad_labels : forall (N : Num) (rt : num -> num) (covs : list (time * frame string)) (assets : list string) (n : nat),
  (Z.of_nat (n * (n + 1)) < 2 ^ 53)%Z -> length assets <> n -> covs <> [] -> Forall (fun c => square n (snd c)) covs ->
  (do file <- save_cov_to_csv covs; from_csv_to_cov rt file assets) = Raise ValueError.
Proof. exact @csv_bad_labels. Qed.
Print Assumptions C139_bad_labels.
(** Two covariances of two assets, one with missing entries; a row of two numbers. *)
Example C139_case : (Z.of_nat (2 * (2 + 1)) < 2 ^ 53)%Z /\ Forall (fun c : time * frame string => square (N := XR) 2 (snd c)) [(1%Z, cs_c1); (7%Z, cs_c2)] /\
  Forall (fun c : time * frame string => forall i j, (i < 2)%nat -> (j < 2)%nat -> cell (N := XR) (snd c) i j = cell (snd c) j i) [(1%Z, cs_c1); (7%Z, cs_c2)].
Proof. exact cs_case. Qed.
Example C139_length_case : forall n, (length [Fin 1; Fin 2] <> n * (n + 1) / 2)%nat.
Proof. exact cs_len. Qed.
