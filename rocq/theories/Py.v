(** * Python/pandas plumbing shared by all model files: exceptions, slices, dictionaries, frames. *)

From Coq Require Import String List Bool ZArith Arith Lia.
From Verif Require Import Num.
Import ListNotations.

(** Exceptions are values; a call either returns or raises. *)
Inductive exn : Type :=
| IndexError | KeyError | AssertionError | LinAlgError | TypeError | AttributeError | ValueError
| ZeroDivisionError | UnboundLocalError | RuntimeError | SolverError | NameError | DCPError
| Unmodelled  (* not an exception: the code computes with NaN or infinities here, which the model leaves out *).

Inductive res (A : Type) : Type := Ok (a : A) | Raise (e : exn).
Arguments Ok {A} _.
Arguments Raise {A} _.

Definition bind {A B} (x : res A) (f : A -> res B) : res B :=
  match x with Ok a => f a | Raise e => Raise e end.
Notation "'do' x <- e1 ; e2" := (bind e1 (fun x => e2))
  (at level 200, x name, e1 at level 100, e2 at level 200).
Notation "'do' ' p <- e1 ; e2" := (bind e1 (fun p => e2))
  (at level 200, p strict pattern, e1 at level 100, e2 at level 200).

Fixpoint mapM {A B} (f : A -> res B) (l : list A) : res (list B) :=
  match l with
  | [] => Ok []
  | a :: l => do b <- f a; do bs <- mapM f l; Ok (b :: bs)
  end.

(** A generator: the items it yields, in order, and the exception that ends it (if any). *)
Definition gen (A : Type) : Type := (list A * option exn)%type.

(** zip/elementwise binary operation on lists (numpy on equal shapes). *)
Fixpoint map2 {A B C} (f : A -> B -> C) (l1 : list A) (l2 : list B) : list C :=
  match l1, l2 with
  | a :: l1, b :: l2 => f a b :: map2 f l1 l2
  | _, _ => []
  end.

(** Python indexing [l[i]] and slicing [l[a:b]] with possibly negative bounds. *)
Definition pynorm (n i : Z) : Z := if (i <? 0)%Z then (n + i)%Z else i.
Definition pyget {A} (l : list A) (i : Z) : res A :=
  let j := pynorm (Z.of_nat (length l)) i in
  if ((0 <=? j) && (j <? Z.of_nat (length l)))%Z
  then match nth_error l (Z.to_nat j) with Some a => Ok a | None => Raise IndexError end
  else Raise IndexError.
Definition pyclamp (n i : Z) : Z := Z.max 0 (Z.min n (pynorm n i)).
Definition pyslice {A} (l : list A) (a b : Z) : list A :=
  let n := Z.of_nat (length l) in
  let a' := pyclamp n a in let b' := pyclamp n b in
  firstn (Z.to_nat (b' - a')) (skipn (Z.to_nat a') l).

(** Dictionaries: association lists in insertion order; [dict_set] overwrites in place. *)
Section Dict.
  Context {K V : Type} (eqb : K -> K -> bool).
  Fixpoint dict_get (d : list (K * V)) (k : K) : option V :=
    match d with
    | [] => None
    | (k', v) :: d => if eqb k k' then Some v else dict_get d k
    end.
  Fixpoint dict_set (d : list (K * V)) (k : K) (v : V) : list (K * V) :=
    match d with
    | [] => [(k, v)]
    | (k', v') :: d => if eqb k k' then (k', v) :: d else (k', v') :: dict_set d k v
    end.
  (** [dict(pairs)]: later duplicates overwrite the value but keep the first position. *)
  Definition dict_of (l : list (K * V)) : list (K * V) :=
    fold_left (fun d kv => dict_set d (fst kv) (snd kv)) l [].
End Dict.

(** ** DataFrames: index (row labels), columns (column labels), one list of values per row. *)
Record frame {N : Num} (I : Type) : Type := mkFrame {
  findex : list I;
  fcols : list string;
  fvals : list (list num)
}.
Arguments mkFrame {N I} _ _ _.
Arguments findex {N I} _.
Arguments fcols {N I} _.
Arguments fvals {N I} _.

(** Time stamps (pandas Timestamps are 64-bit integers). *)
Notation time := Z (only parsing).

Definition wf_frame {N : Num} {I} (f : frame I) : Prop :=
  length (findex f) = length (fvals f) /\
  Forall (fun r => length r = length (fcols f)) (fvals f).

(** Strictly increasing time index. *)
Fixpoint increasing (l : list time) : Prop :=
  match l with
  | a :: ((b :: _) as l') => (a < b)%Z /\ increasing l'
  | _ => True
  end.

Section FrameOps.
  Context {N : Num}.

  (** Elementwise function of one frame. *)
  Definition fmap {I} (g : num -> num) (f : frame I) : frame I :=
    mkFrame (findex f) (fcols f) (map (map g) (fvals f)).

  (** Row of [f] at label [t] ([f.loc[t]]), if present. *)
  Fixpoint row_at (idx : list time) (rows : list (list num)) (t : time) : option (list num) :=
    match idx, rows with
    | i :: idx, r :: rows => if (t =? i)%Z then Some r else row_at idx rows t
    | _, _ => None
    end.
  Definition floc (f : frame time) (t : time) : option (list num) :=
    row_at (findex f) (fvals f) t.

  (** [a op b] for frames with the same columns and [findex b] contained in [findex a]
      (pandas aligns on the union of the two indices; labels missing from [b] give NaN rows).
      Simplification: the union is taken to be [findex a], which is what pandas computes when [a]'s
      index is sorted and contains [b]'s. *)
  Definition falign (op : num -> num -> num) (a b : frame time) : frame time :=
    mkFrame (findex a) (fcols a)
      (map2 (fun t r => match floc b t with
                        | Some r' => map2 op r r'
                        | None => map (fun _ => nnan) r
                        end) (findex a) (fvals a)).

  (** [f.dropna(axis=0, how="all")]: drop the rows all of whose entries are NaN. *)
  Definition all_nan (r : list num) : bool := forallb nisnan r.
  Definition fdropna_all {I} (f : frame I) : frame I :=
    let kept := filter (fun p => negb (all_nan (snd p))) (combine (findex f) (fvals f)) in
    mkFrame (map fst kept) (fcols f) (map snd kept).

  (** [f.fillna(0.0)] *)
  Definition ffillna0 {I} (f : frame I) : frame I :=
    fmap (fun x => if nisnan x then n0 else x) f.

End FrameOps.
