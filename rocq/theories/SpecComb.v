(** * Vocabulary for the properties of combination.py: what is issued, scored and posed at each time. *)
From Coq Require Import String List Bool ZArith Arith Lia.
From Verif Require Import Num Py Combination.
Import ListNotations.

Section SpecComb.
  Context (LA : LinAlg).
  Notation sigmas_t := (kdict (tdict (l_mat LA))).
  Notation means_t := (kdict (tdict (l_vec LA))).
  Notation returns_t := (tdict (l_vec LA)).

  (** The arguments are dictionaries: keys are distinct. *)
  Definition dicts {V} (d : kdict (tdict V)) : Prop :=
    NoDup (map fst d) /\ Forall (fun ks => NoDup (map fst (snd ks))) d.

  (** The forecast times: those of the first expert, in its order. *)
  Definition forecast_times (sigmas : sigmas_t) : list time :=
    match sigmas with [] => [] | ks :: _ => map fst (snd ks) end.

  (** All experts cover the same times. *)
  Definition same_times (sigmas : sigmas_t) : Prop :=
    forall ks t, In ks sigmas -> (In t (map fst (snd ks)) <-> In t (forecast_times sigmas)).

  (** The lower Cholesky factor of the precision matrix of a forecast (None: LinAlgError). *)
  Definition precision_factor (S : l_mat LA) : option (l_mat LA) :=
    match l_inv LA S with Some J => l_chol LA J | None => None end.
  Definition factors_exist (sigmas : sigmas_t) : Prop :=
    forall ks tS, In ks sigmas -> In tS (snd ks) -> precision_factor (snd tS) <> None.

  (** Factor / mean issued by expert [k] at time [t] (zero if there is none). *)
  Definition factor (sigmas : sigmas_t) (k : string) (t : time) : l_mat LA :=
    match dict_get String.eqb sigmas k with
    | Some d => match dict_get Z.eqb d t with
                | Some Sg => match precision_factor Sg with Some L => L | None => l_zeroM LA end
                | None => l_zeroM LA
                end
    | None => l_zeroM LA
    end.
  Definition mean_at (means : option means_t) (k : string) (t : time) : l_vec LA :=
    match means with
    | Some m => match dict_get String.eqb m k with
                | Some d => match dict_get Z.eqb d t with Some v => v | None => l_vec0 LA end
                | None => l_vec0 LA
                end
    | None => l_vec0 LA
    end.
  Definition return_at (returns : returns_t) (t : time) : l_vec LA :=
    match dict_get Z.eqb returns t with Some r => r | None => l_vec0 LA end.

  (** The predecessor of [t] in a list of times. *)
  Fixpoint prev (idx : list time) (t : time) : time :=
    match idx with
    | a :: ((b :: _) as l) => if (b =? t)%Z then a else prev l t
    | _ => 0%Z
    end.

  (** What expert [k]'s forecast issued just before [t] scores on the return of [t]:
      L^T r_t - L^T mu. *)
  Definition score (sigmas : sigmas_t) (means : option means_t) (returns : returns_t) (k : string) (t : time)
    : l_vec LA :=
    let s := prev (forecast_times sigmas) t in
    l_vsub LA (l_tmulv LA (factor sigmas k s) (return_at returns t))
              (l_tmulv LA (factor sigmas k s) (mean_at means k s)).

  (** The quadratic term and the columns of A for a list of scored times. *)
  Definition quad (sigmas : sigmas_t) (means : option means_t) (returns : returns_t) (win : list time)
    : l_matK LA :=
    fold_left (l_addK LA)
      (map (fun t => l_gram LA (l_colstack LA (map (fun ks => score sigmas means returns (fst ks) t) sigmas))) win)
      (l_zeroK LA).
  Definition diags (sigmas : sigmas_t) (win : list time) : list (list (l_num LA)) :=
    map (fun ks => concat (map (fun t => l_diag LA (factor sigmas (fst ks) (prev (forecast_times sigmas) t))) win))
        sigmas.

  (** [sub l a w]: the w elements of l from position a on. *)
  Definition sub {A} (l : list A) (a w : nat) : list A := firstn w (skipn a l).

  (** The scored times are all forecast times but the first; the problem posed at position i of them, with
      window w, looks at the w scored times ending there. *)
  Definition scored (sigmas : sigmas_t) : list time := tl (forecast_times sigmas).
  Definition window_at (sigmas : sigmas_t) (w i : nat) : list time := sub (scored sigmas) (i + 1 - w) w.

  Definition posed (sigmas : sigmas_t) (means : option means_t) (returns : returns_t) (w i : nat)
    : res (time * problem LA) :=
    match l_cholK LA (quad sigmas means returns (window_at sigmas w i)) with
    | Some C => Ok (nth i (scored sigmas) 0%Z, (diags sigmas (window_at sigmas w i), C))
    | None => Raise LinAlgError
    end.

  (** Returns are known at every scored time. *)
  Definition returns_known (sigmas : sigmas_t) (returns : returns_t) : Prop :=
    forall t, In t (scored sigmas) -> In t (map fst returns).

  (** The Result reported for time t with weights w (None: singular combination). *)
  Definition combined (sigmas : sigmas_t) (means : option means_t) (t : time) (w : list (l_num LA))
    : option (Result LA) :=
    let L := fold_left (l_addM LA)
               (map2 (fun ks x => l_scaleM LA x (factor sigmas (fst ks) t)) sigmas w) (l_zeroM LA) in
    let nu := fold_left (l_addV LA)
               (map2 (fun ks x => l_scaleV LA x (l_tmulv LA (factor sigmas (fst ks) t) (mean_at means (fst ks) t)))
                     sigmas w) (l_zeroV LA) in
    match l_invT_mulv LA L nu, l_inv_sq LA L with
    | Some m, Some Sg => Some (mkResult LA t m Sg w)
    | _, _ => None
    end.

  (** The means argument is acceptable. *)
  Definition means_ok (sigmas : sigmas_t) (means : option means_t) : Prop :=
    match means with
    | None => True
    | Some m => forall ks, In ks sigmas -> exists mk, dict_get String.eqb m (fst ks) = Some mk /\
                  forall t, In t (map fst (snd ks)) <-> In t (map fst mk)
    end.


  (** Omitted means: zero for every expert and time. *)
  Definition zero_means (sigmas : sigmas_t) : means_t :=
    map (fun ks => (fst ks, map (fun ts => (fst ts, l_vec0 LA)) (snd ks))) sigmas.

  (** Quadratic term and columns of A for a list of pairs (forecast time, next time). *)
  Definition pairs_quad (sigmas : sigmas_t) (means : option means_t) (returns : returns_t) (pairs : list (time * time)) : l_matK LA :=
    fold_left (l_addK LA)
      (map (fun st => l_gram LA (l_colstack LA (map (fun ks =>
          l_vsub LA (l_tmulv LA (factor sigmas (fst ks) (fst st)) (return_at returns (snd st)))
                    (l_tmulv LA (factor sigmas (fst ks) (fst st)) (mean_at means (fst ks) (fst st)))) sigmas))) pairs)
      (l_zeroK LA).
  Definition pairs_diag (sigmas : sigmas_t) (pairs : list (time * time)) : list (list (l_num LA)) :=
    map (fun ks => concat (map (fun st => l_diag LA (factor sigmas (fst ks) (fst st))) pairs)) sigmas.


  (** A request is valid if it is omitted or a non-empty stretch of the scored times. *)
  Definition valid_times (sigmas : sigmas_t) (times : option (list time)) : Prop :=
    forall ts, times = Some ts -> ts <> [] /\ exists z, ts = sub (scored sigmas) z (length ts).
End SpecComb.

(** Later data appended to the dictionaries. *)
Definition extends {V} (d d' : kdict (tdict V)) : Prop :=
  Forall2 (fun a b => fst a = fst b /\ exists ext, snd b = snd a ++ ext) d d'.
Definition extends_opt {V} (m m' : option (kdict (tdict V))) : Prop :=
  match m, m' with
  | None, None => True
  | Some d, Some d' => extends d d'
  | _, _ => False
  end.

(** [a] and [b] are consecutive in [l]. *)
Definition consecutive (l : list time) (a b : time) : Prop := exists l1 l2, l = l1 ++ a :: b :: l2.

(** A solver that does not remember earlier problems. *)
Definition memoryless {LA : LinAlg} (f : problem LA -> option (list (l_num LA))) : solver LA := fun _ p => f p.

(** The window actually used with [n] forecast times: None and 0 mean everything. *)
Definition eff (n : nat) (window : option nat) : nat :=
  match window with Some (S k) => Nat.min (S k) (n - 1) | _ => n - 1 end.

(** The positions (among the scored times) a run looks at. *)
Definition positions (sc : list time) (w : nat) (times : option (list time)) : list nat :=
  match times with
  | None => seq (w - 1) (length sc + 1 - w)
  | Some [] => []
  | Some (t :: ts) =>
      match pos_of sc t with
      | Some z => if w - 1 <=? z then seq z (length (t :: ts)) else seq (z + w - 1) (length (t :: ts) + 1 - w)
      | None => []
      end
  end.
