(** * Model of cvx/covariance/ewma.py, function by function. *)

From Coq Require Import String List Bool ZArith Arith Lia.
From Verif Require Import Num Py.
Import ListNotations.
Local Open Scope num_scope.

(** 1-d arrays and 2-d arrays. *)
Notation vec := (list num).
Notation mat := (list (list num)).

Section Ewma.
  Context {N : Num}.

  (** Python truthiness of an optional number: [None] and [0] are false (NaN is true).
      Used for `if clip_at:` (ewma.py:42, 82, 258), `if halflife:` (ewma.py:242) and
      `x or y` (ewma.py:117-118). *)
  Definition truthy (o : option num) : option num :=
    match o with
    | Some c => if nis0 c then None else Some c
    | None => None
    end.

  (** np.clip(x, lo, hi) = minimum(maximum(x, lo), hi)  (used at ewma.py:259). *)
  Definition npclip (x lo hi : num) : num := nmin (nmax x lo) hi.

  (** ewma.py:242-245: alpha = 1 - exp(-log(2)/halflife) when halflife is given; beta = 1 - alpha.
      Without half-life and alpha Python evaluates 1 - None: TypeError. *)
  Definition alpha_of (halflife alpha : option num) : res num :=
    match truthy halflife with
    | Some h => Ok (n1 - nexp ((- nln (n1 + n1)) / h))
    | None => match alpha with Some a => Ok a | None => Raise TypeError end
    end.
  Definition beta_of (halflife alpha : option num) : res num :=
    do a <- alpha_of halflife alpha; Ok (n1 - a).

  (** ewma.py:258-263, one element of the array update at step [n]: [e] is the old `_ewma` entry,
      [x] the entry of `next_val`. *)
  Definition upd (beta : num) (min_periods : nat) (clip_at : option num) (n : nat) (e x : num) : num :=
    match truthy clip_at with
    | Some c =>
        if (min_periods + 1 <=? n)%nat
        then e + ((n1 - beta) * (npclip x ((- c) * e) (c * e) - e)) / (n1 - npow beta (n + 1))
        else e + ((n1 - beta) * (x - e)) / (n1 - npow beta (n + 1))
    | None => e + ((n1 - beta) * (x - e)) / (n1 - npow beta (n + 1))
    end.

  (** `_general` works elementwise on arrays of any shape; [V] is the shape, given by its elementwise
      map and zip. *)
  Section General.
    Context {A V : Type} (vmap : (num -> num) -> V -> V)
            (vmap2 : (num -> num -> num) -> V -> V -> V).

    (** ewma.py:252-265, the loop: states after rows n, n+1, ... *)
    Fixpoint general_loop (beta : num) (fct : A -> V) (min_periods : nat) (clip_at : option num)
             (n : nat) (ewma : V) (rows : list A) : list V :=
      match rows with
      | [] => []
      | row :: rows =>
          let ewma' := vmap2 (upd beta min_periods clip_at n) ewma (fct row) in
          ewma' :: general_loop beta fct min_periods clip_at (S n) ewma' rows
      end.

    (** ewma.py:236-240, `f(k)`: `_ewma * np.nan` while k < min_periods - 1. *)
    Definition masked (min_periods k : nat) (ewma : V) : V :=
      if (k + 1 <? min_periods)%nat then vmap (fun x => x * nnan) ewma else ewma.

    Fixpoint mask_from (min_periods k : nat) (l : list V) : list V :=
      match l with
      | [] => []
      | e :: l => masked min_periods k e :: mask_from min_periods (S k) l
      end.

    (** ewma.py:216-265.  `y[0]` of an empty array raises IndexError.  [times] has the length of [y]
        (both come from the same frame). *)
    Definition general (y : list A) (times : list time) (halflife alpha : option num)
               (fct : A -> V) (min_periods : nat) (clip_at : option num) : res (list (time * V)) :=
      do beta <- beta_of halflife alpha;
      match y with
      | [] => Raise IndexError
      | y0 :: rest =>
          let e0 := fct y0 in
          Ok (combine times
                (mask_from min_periods 0
                   (e0 :: general_loop beta fct min_periods clip_at 1 e0 rest)))
      end.
  End General.

  Definition mmap (g : num -> num) (m : mat) : mat := map (map g) m.
  Definition mmap2 (g : num -> num -> num) (a b : mat) : mat := map2 (map2 g) a b.

  (** np.outer(x, x) (ewma.py:196). *)
  Definition outer (x y : vec) : mat := map (fun a => map (fun b => a * b) y) x.

  (** np.isnan(m).all() for a 2-d array (ewma.py:199). *)
  Definition all_nan_mat (m : mat) : bool := forallb all_nan m.

  (** ewma.py:186-200. *)
  Definition ewma_cov (data : frame time) (halflife : option num) (min_periods : nat)
    : res (list (time * frame string)) :=
    do l <- general mmap mmap2 (fvals data) (findex data) halflife None
              (fun x => outer x x) min_periods None;
    Ok (map (fun p => (fst p, mkFrame (fcols data) (fcols data) (snd p)))
          (filter (fun p => negb (all_nan_mat (snd p))) l)).

  (** ewma.py:203-213.  The yielded Series share [fcols data] as index; only their values are kept. *)
  Definition ewma_mean (data : frame time) (halflife : option num) (min_periods : nat)
             (clip_at : option num) : res (list (time * vec)) :=
    do l <- general (@map num num) map2 (fvals data) (findex data) halflife None
              (fun x => x) min_periods clip_at;
    Ok (filter (fun p => negb (all_nan (snd p))) l).

  (** ewma.py:12-13: dict(generator) then transpose; columns are those of the yielded Series.
      (When nothing was yielded pandas gives a frame without columns; the model keeps [cols], which is
      indistinguishable after the alignments that follow.) *)
  Definition generator2frame (cols : list string) (g : list (time * vec)) : frame time :=
    let d := dict_of Z.eqb g in
    mkFrame (map fst d) cols (map snd d).

  (** ewma.py:16-30: np.power(returns, 2) then EWMA. *)
  Definition variance (returns : frame time) (halflife : option num) (min_periods : nat)
             (clip_at : option num) : res (list (time * vec)) :=
    ewma_mean (fmap (fun x => x * x) returns) halflife min_periods clip_at.

  (** ewma.py:33-47. *)
  Definition volatility (returns : frame time) (halflife : option num) (min_periods : nat)
             (clip_at : option num) : res (frame time) :=
    let clip_at_var := match truthy clip_at with Some c => Some (c * c) | None => None end in
    do g <- variance returns halflife min_periods clip_at_var;
    Ok (fmap nsqrt (generator2frame (fcols returns) g)).

  (** ewma.py:50-72. *)
  Definition center (returns : frame time) (halflife : option num) (min_periods : nat)
             (mean_adj : bool) : res (frame time * frame time) :=
    if mean_adj then
      do g <- ewma_mean returns halflife min_periods None;
      let mean := generator2frame (fcols returns) g in
      Ok (fdropna_all (falign nsub returns mean), mean)
    else Ok (returns, fmap (fun x => n0 * x) returns).

  (** ewma.py:75-85.  DataFrame.clip orders its scalar bounds, leaves NaN alone and replaces entries
      below the lower / above the upper bound. *)
  Definition clip1 (c x : num) : num :=
    let lo := if nltb c (- c) then c else - c in
    let hi := if nltb c (- c) then - c else c in
    if nisnan x then x else
    let x := if nltb x lo then lo else x in
    if nltb hi x then hi else x.
  Definition clip (data : frame time) (clip_at : option num) : frame time :=
    match truthy clip_at with
    | Some c => fdropna_all (fmap (clip1 c) data)
    | None => fdropna_all data
    end.

  (** ewma.py:120-137, scale_cov. *)
  Definition diagonal (m : mat) : vec := map (fun i => nth i (nth i m []) n0) (seq 0 (length m)).
  Definition inv_vol (d : num) : num := if nis0 d then nnan else n1 / nsqrt d.
  Definition scale_cov (vola : vec) (matrix : frame string) : frame string :=
    let v := map inv_vol (diagonal (fvals matrix)) in
    let corr := map2 (fun vi row => map2 (fun x vj => (vi * x) * vj) row v) v (fvals matrix) in
    let cov := map2 (fun vi row => map2 (fun x vj => (vi * x) * vj) row vola) vola corr in
    mkFrame (findex matrix) (fcols matrix) cov.

  (** ewma.py:139-140, scale_mean. *)
  Definition scale_mean (vola vec1 vec2 : vec) : vec :=
    map2 nadd vec1 (map2 nmul vola vec2).

  (** ewma.py:9, the IEWMA namedtuple. *)
  Record IEWMA : Type := mkIEWMA {
    itime : time;
    imean : vec;
    icov : frame string;
    ivol : vec
  }.

  (** `x or y` for optional half-lives (ewma.py:117-118). *)
  Definition or_else (a b : option num) : option num :=
    match truthy a with Some x => Some x | None => b end.

  (** `frame.loc[t]` raises KeyError for an unknown label. *)
  Definition loc_or_raise (f : frame time) (t : time) : res vec :=
    match floc f t with Some r => Ok r | None => Raise KeyError end.

  (** ewma.py:88-183.  The yields happen after all the frames have been computed; an exception can
      therefore only occur before the first item or (KeyError from `.loc`, proved impossible) in the
      loop, and the result is given as a list. *)
  Record params : Type := mkParams {
    vola_halflife : option num;
    cov_halflife : option num;
    min_periods_vola : nat;
    min_periods_cov : nat;
    use_mean : bool;
    mu_halflife1 : option num;
    mu_halflife2 : option num;
    p_clip_at : option num;
    nan_to_num : bool
  }.

  Definition adjusted (P : params) (returns vola : frame time) : frame time :=
    ffillna0 (clip (falign ndiv returns vola) (p_clip_at P)).

  Definition iterated_ewma (P : params) (returns : frame time) : res (list IEWMA) :=
    let mu1 := or_else (mu_halflife1 P) (vola_halflife P) in
    let mu2 := or_else (mu_halflife2 P) (cov_halflife P) in
    let returns := if nan_to_num P then ffillna0 returns else returns in
    do '(returns, returns_mean) <- center returns mu1 0 (use_mean P);
    do vola <- volatility returns (vola_halflife P) (min_periods_vola P) (p_clip_at P);
    let adj := adjusted P returns vola in
    do '(adj, adj_mean) <- center adj mu2 0 (use_mean P);
    do covs <- ewma_cov adj (cov_halflife P) (min_periods_cov P);
    mapM (fun p =>
            let t := fst p in
            do v <- loc_or_raise vola t;
            do m <- (if use_mean P
                     then do m1 <- loc_or_raise returns_mean t;
                          do m2 <- loc_or_raise adj_mean t;
                          Ok (scale_mean v m1 m2)
                     else Ok (map (fun _ => n0) (fcols returns)));
            Ok (mkIEWMA t m (scale_cov v (snd p)) v)) covs.

End Ewma.
