(** * C103: construct_rho, the uncertainty of expected returns (experiments/utils/trading_model.py:19-30). *)
From Coq Require Import Reals List Lia Lra.
From Verif Require Import Py Rho SpecRho RhoProps.
Import ListNotations.
Local Open Scope R_scope.

(** Row t has, for every asset, n_devs times the weighted standard deviation of the asset's returns observed before row t
    (0 as long as there are fewer than two); without rows the call raises IndexError. *)
Theorem C103_formula k rows n_devs :
  construct_rho k rows n_devs =
  if rows then Raise IndexError
  else Ok (map (fun t => map (fun j => if Nat.leb 2 (length (observed (before t j rows))) then n_devs * w_std (before t j rows) else 0) (seq 0 k))
               (seq 0 (length rows))).
Proof. exact (rho_total k rows n_devs). Qed.
Print Assumptions C103_formula.

(** Row t depends on the rows before t only. *)
Theorem C103_no_look_ahead k rows rows' n_devs out out' t :
  construct_rho k rows n_devs = Ok out -> construct_rho k rows' n_devs = Ok out' ->
  firstn t rows = firstn t rows' -> (t < length rows)%nat -> (t < length rows')%nat ->
  firstn (S t) out = firstn (S t) out' /\ length (firstn (S t) out) = S t.
Proof. exact (rho_no_look_ahead k rows rows' n_devs out out' t). Qed.
Print Assumptions C103_no_look_ahead.

(** Returns c x + b in place of x: the uncertainty is |c| times as large (so b changes nothing, and constant returns, c = 0, have none);
    it is never negative if n_devs is not. *)
Theorem C103_affine k rows n_devs c b out :
  construct_rho k rows n_devs = Ok out ->
  construct_rho k (map (map (option_map (fun v => c * v + b))) rows) n_devs = Ok (map (map (fun v => Rabs c * v)) out) /\
  (0 <= n_devs -> forall row v, In row out -> In v row -> 0 <= v).
Proof. exact (rho_affine k rows n_devs c b out). Qed.
Print Assumptions C103_affine.

(** ** A concrete case, with a missing return. *)
Example C103_met : construct_rho 1 [[Some 1]; [Some 3]; [None]; [Some 2]] 2 = Ok [[0]; [0]; [2 * sqrt 2]; [2 * sqrt 2]].
Proof.
  rewrite C103_formula. cbn [length seq map]. unfold before. cbn [firstn map nth].
  assert (H1 : w_var [Some 1; Some 3] = 2).
  { unfold w_var, w_mean, w_sum, w2_sum, total. cbn -[weight pow Rdiv Rmult Rplus Rminus IZR]. rewrite weight_0. pose proof (weight_pos 1) as Hw. revert Hw. generalize (weight 1). intros w Hw. field. repeat split; lra. }
  assert (H2 : w_var [Some 1; Some 3; None] = 2).
  { unfold w_var, w_mean, w_sum, w2_sum, total. cbn -[weight pow Rdiv Rmult Rplus Rminus IZR]. rewrite (weight_S 1). pose proof (weight_pos 1) as Hw. pose proof fac_pos as Hf. revert Hw Hf. rewrite (weight_S 0), weight_0. generalize fac. intros f _ Hf. 
    pose proof (Rmult_lt_0_compat _ _ Hf Hf) as Hff. pose proof (Rmult_lt_0_compat _ _ Hf Hff). field. repeat split; lra. }
  unfold w_std. rewrite H1, H2. reflexivity.
Qed.
