(** * Model of the sampling experiment of experiments/extensions/generative_mode.ipynb (cells 8 and 9). *)
From Coq Require Import String List Bool ZArith Arith Lia.
From Verif Require Import Num Py Ewma Combination FromEwmas CmIewma.
Import ListNotations.

Section Sampling.
  Context {N : Num} (LA : LinAlg) (label : option num * option num -> string)
          (to_mat : frame string -> l_mat LA) (to_vec : vec -> l_vec LA) (reg : l_mat LA -> l_mat LA).
  Context (slv : solver LA) (pairs : list (option num * option num)) (mpv mpc : nat) (window : option nat).

  (** cell 8: def fit_cm_iewma(returns): the CM-IEWMA cell (CmIewma.v) with window=10 on these returns, then
        return [*cm_iewma.values()][-1]
      An empty dictionary raises IndexError. *)
  Definition last_opt {A} (l : list A) : option A := nth_error (rev l) 0.
  Definition fit_cm_iewma (returns : frame time) : res (l_mat LA) :=
    do r <- cm_iewma LA label to_mat to_vec reg slv returns pairs mpv mpc window;
    do tS <- or_raise (last_opt (fst r)) IndexError;
    Ok (snd tS).

  (** np.random.multivariate_normal(np.zeros(n), cov): the i-th call after np.random.seed(0), given cov. *)
  Context (draw : nat -> l_mat LA -> res (list num)).

  (** pd.concat([returns_extended, pd.DataFrame(sample.reshape(1, -1), columns=returns_train.columns, index=[t])])
      pd.DataFrame raises ValueError if the sample does not have one entry per column. *)
  Definition append_row (f : frame time) (t : time) (x : list num) : res (frame time) :=
    if length x =? length (fcols f) then Ok (mkFrame (findex f ++ [t]) (fcols f) (fvals f ++ [x])) else Raise ValueError.

  (** cell 9: run_sampling_experiment: the loop from step i on, n steps to go.
        for i in trange(100):
            cov = fit_cm_iewma(returns_extended)
            sample = np.random.multivariate_normal(np.zeros(cov.shape[0]), cov)
            returns_sampled.append(sample)
            returns_extended = pd.concat([returns_extended, pd.DataFrame(sample.reshape(1,-1), columns=returns_train.columns,
                                                                        index=[returns_test.index[i]])])
      returns_sampled is not returned. *)
  Fixpoint sampling_loop (test : list time) (i n : nat) (extended : frame time) : res (frame time) :=
    match n with
    | O => Ok extended
    | S n =>
        do cov <- fit_cm_iewma extended;
        do x <- draw i cov;
        do t <- or_raise (nth_error test i) IndexError;
        do extended' <- append_row extended t x;
        sampling_loop test (S i) n extended'
    end.
  Definition run_sampling_experiment (train : frame time) (test : list time) (steps : nat) : res (frame time) :=
    sampling_loop test 0 steps train.
End Sampling.
