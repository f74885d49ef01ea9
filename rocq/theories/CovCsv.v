(** * experiments/extensions/large_universes.ipynb, cell 5: covariances saved to csv as upper triangles and read back.

    [rt x] is the number read back after writing x (to_csv writes the shortest decimal form, read_csv parses it; the default
    parser need not return x itself). Simplified: covariances of different sizes in one file (padded by pandas with missing
    values) and non-square ones give [Unmodelled]; the file itself and the date formats are the identity. *)
From Coq Require Import String List Bool ZArith Arith.
From Flocq Require Import Core BinarySingleNaN.
From Verif Require Import Num Py Ieee.
Import ListNotations.

(** np.triu_indices(n): the pairs (i, j), i <= j < n, row by row (large_universes.ipynb:119, 137). *)
Definition triu_pairs (n : nat) : list (nat * nat) := flat_map (fun i => map (fun j => (i, j)) (seq i (n - i))) (seq 0 n).

(** large_universes.ipynb:134, n = int(np.sqrt(2*len(cov))): the integer 2 len as binary64, its correctly rounded root, truncated. *)
Definition b64_of_Z (z : Z) : b64 := binary_normalize 53 1024 _ _ mode_NE z 0 false.
Definition side_of (len : nat) : nat := Z.to_nat (Btrunc (fsqrt (b64_of_Z (2 * Z.of_nat len)))).

Section Csv.
  Context {N : Num}.
  (** m[i, j] = v. *)
  Fixpoint set_nth {A} (l : list A) (i : nat) (f : A -> A) : list A :=
    match l, i with [], _ => [] | a :: l, O => f a :: l | a :: l, S i => a :: set_nth l i f end.
  Definition put (m : list (list num)) (i j : nat) (v : num) : list (list num) := set_nth m i (fun row => set_nth row j (fun _ => v)).
  (** m[rows, cols] = vals, one after the other. *)
  Definition assign (m : list (list num)) (ix : list (nat * nat)) (vals : list num) : list (list num) :=
    fold_left (fun m e => put m (fst (fst e)) (snd (fst e)) (snd e)) (combine ix vals) m.

  (** large_universes.ipynb:119, cov.values[np.triu_indices_from(cov.values, k=0)]. *)
  Definition upper_part (rows : list (list num)) : list num := map (fun ij => nth (snd ij) (nth (fst ij) rows []) nnan) (triu_pairs (length rows)).

  (** large_universes.ipynb:125-141, from_upper_triangular_to_full. A right-hand side of another length than the index arrays is a
      ValueError (a single value would be broadcast, but then n = 1 and the lengths agree). *)
  Definition from_upper_triangular_to_full (cov : list num) : res (list (list num)) :=
    let n := side_of (length cov) in
    let full := repeat (repeat n0 n) n in
    let ix := triu_pairs n in
    if length cov =? length ix then
      let full := assign full ix cov in
      Ok (assign full (map (fun ij => (snd ij, fst ij)) ix) cov)
    else Raise ValueError.

  (** large_universes.ipynb:110-122, save_cov_to_csv: the rows of the file. *)
  Definition save_cov_to_csv (covs : list (time * frame string)) : res (list (time * list num)) :=
    let n := match covs with [] => 0%nat | c :: _ => length (fvals (snd c)) end in
    if forallb (fun c => (length (fvals (snd c)) =? n) && forallb (fun r => length r =? n) (fvals (snd c))) covs
    then Ok (map (fun c => (fst c, upper_part (fvals (snd c)))) covs) else Raise Unmodelled.

  (** large_universes.ipynb:144-151, from_csv_to_cov: labels must fit (pd.DataFrame raises ValueError otherwise). *)
  Definition from_csv_to_cov (rt : num -> num) (file : list (time * list num)) (assets : list string) : res (list (time * frame string)) :=
    mapM (fun row => do full <- from_upper_triangular_to_full (map rt (snd row));
                     if length assets =? length full then Ok (fst row, mkFrame assets assets full) else Raise ValueError) file.
End Csv.
