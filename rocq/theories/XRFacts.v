(** * Facts about the extended reals [xr]. *)
From Coq Require Import Reals Lra Psatz List Bool Arith Lia.
From Verif Require Import Num Py ListFacts Ewma EwmaTot EwmaPrefix EwmaEquiv.
Import ListNotations.
Local Open Scope R_scope.

Ltac xdec :=
  repeat match goal with
  | |- context [Rlt_dec ?a ?b] => destruct (Rlt_dec a b)
  | |- context [Req_EM_T ?a ?b] => destruct (Req_EM_T a b)
  | H : context [Rlt_dec ?a ?b] |- _ => destruct (Rlt_dec a b)
  | H : context [Req_EM_T ?a ?b] |- _ => destruct (Req_EM_T a b)
  end.
Ltac xfin := try reflexivity; try (f_equal; lra); try (f_equal; nra); try (exfalso; lra); try (exfalso; nra).
Ltac xcrush := unfold xsub, inf_sgn in *; simpl in *; unfold inf_sgn in *; xdec; xfin.

Section Scale.
  Variable s : R.
  Hypothesis Hs : 0 < s.

  Lemma pos_mul x : 0 < s * x <-> 0 < x. Proof. split; intros; nra. Qed.
  Lemma neg_mul x : s * x < 0 <-> x < 0. Proof. split; intros; nra. Qed.

  Lemma inf_sgn_pos x : inf_sgn (s * x) = inf_sgn x.
  Proof. unfold inf_sgn; xdec; xfin. Qed.

  Definition xs (x : xr) : xr := xmul (Fin s) x.

  Lemma xs_cases x : xs x = match x with Fin a => Fin (s * a) | PInf => PInf | NInf => NInf | NaN => NaN end.
  Proof. unfold xs; destruct x; xcrush. Qed.

  Lemma xs_nan x : xisnan (xs x) = xisnan x.
  Proof. rewrite xs_cases; destruct x; auto. Qed.
  Lemma xs_add x y : xadd (xs x) (xs y) = xs (xadd x y).
  Proof. rewrite !xs_cases; destruct x, y; simpl; xfin. Qed.
  Lemma xs_opp x : xopp (xs x) = xs (xopp x).
  Proof. rewrite !xs_cases; destruct x; simpl; xfin. Qed.
  Lemma xs_sub x y : xsub (xs x) (xs y) = xs (xsub x y).
  Proof. unfold xsub. rewrite xs_opp. apply xs_add. Qed.
  Lemma xs_mul_l x y : xmul (xs x) y = xs (xmul x y).
  Proof.
    rewrite xs_cases. destruct x, y; simpl; try (rewrite xs_cases; reflexivity).
    all: try (rewrite xs_cases; f_equal; lra).
    all: rewrite xs_cases; unfold inf_sgn; xdec; xfin.
  Qed.
  Lemma xmul_comm x y : xmul x y = xmul y x.
  Proof. destruct x, y; simpl; auto. f_equal; lra. Qed.
  Lemma xs_mul_r x y : xmul x (xs y) = xs (xmul x y).
  Proof. rewrite xmul_comm, xs_mul_l, xmul_comm; auto. Qed.
  Lemma xs_div_l x y : xdiv (xs x) y = xs (xdiv x y).
  Proof.
    rewrite xs_cases. destruct x, y; simpl; rewrite ?xs_cases; auto.
    all: xdec; try rewrite inf_sgn_pos; auto; try (unfold inf_sgn; xdec; xfin).
    all: f_equal; unfold Rdiv; ring.
  Qed.
  Lemma xs_div x y : xdiv (xs x) (xs y) = xdiv x y.
  Proof.
    rewrite !xs_cases. destruct x, y; simpl; auto; xdec; auto; xfin.
    - apply inf_sgn_pos.
    - f_equal. field. lra.
  Qed.
  Lemma xs_ltb x y : xltb (xs x) (xs y) = xltb x y.
  Proof. rewrite !xs_cases. destruct x, y; simpl; auto; xdec; auto; exfalso; nra. Qed.
  Lemma xs_max x y : xmax (xs x) (xs y) = xs (xmax x y).
  Proof. unfold xmax. rewrite !xs_nan, xs_ltb. destruct (xisnan x), (xisnan y), (xltb x y); auto. Qed.
  Lemma xs_min x y : xmin (xs x) (xs y) = xs (xmin x y).
  Proof. unfold xmin. rewrite !xs_nan, xs_ltb. destruct (xisnan x), (xisnan y), (xltb y x); auto. Qed.

  Lemma xs_upd b mp c k e x :
    upd b mp c k (xs e) (xs x) = xs (upd b mp c k e x).
  Proof.
    unfold upd, npclip. destruct (truthy c) as [c'|]; [destruct (_ <=? _)%nat|].
    all: cbn [nadd nsub nmul ndiv nmin nmax nopp XR].
    all: rewrite ?xs_mul_r, ?xs_max, ?xs_min, ?xs_sub, ?xs_mul_r, ?xs_div_l, ?xs_add; reflexivity.
  Qed.
End Scale.

Lemma xs_xs s t x : 0 < s -> 0 < t -> xs s (xs t x) = xs (s * t) x.
Proof.
  intros Hs Ht. assert (0 < s * t) by nra. rewrite !xs_cases by auto. destruct x; auto. f_equal; ring.
Qed.

Lemma xs_sq s x : 0 < s -> xmul (xs s x) (xs s x) = xs (s * s) (xmul x x).
Proof. intros Hs. rewrite xs_mul_l, xs_mul_r, xs_xs by auto. reflexivity. Qed.

Lemma xs_sqrt s x : 0 < s -> xsqrt (xs (s * s) x) = xs s (xsqrt x).
Proof.
  intros Hs. rewrite !xs_cases by nra. destruct x as [r| | |]; simpl; auto. xdec; auto; try (exfalso; nra).
  - exfalso. apply n. assert (0 < s * s) by nra. nra.
  - f_equal. rewrite sqrt_mult by nra. rewrite sqrt_square by lra. reflexivity.
Qed.

(** Rescaling asset q by [s q] > 0. *)
Lemma equivariant_scale (s : nat -> R) :
  (forall q, 0 < s q) ->
  equivariant (fun q => xs (s q)) (fun q => xs (s q * s q)) (fun q q' => xs (s q * s q')).
Proof.
  intros Hs. assert (Hs2 : forall q q', 0 < s q * s q') by (intros; apply Rmult_lt_0_compat; auto).
  split; cbn [num XR nmul nadd nsub ndiv nsqrt n0 nnan].
  - intros q x. apply xs_nan; auto.
  - intros q x. apply xs_nan; auto.
  - intros q. rewrite xs_cases by auto. f_equal; lra.
  - intros q. rewrite xs_cases by auto. reflexivity.
  - intros; apply xs_sq; auto.
  - intros; apply xs_sqrt; auto.
  - intros; apply xs_sub; auto.
  - intros; apply xs_div; auto.
  - intros. rewrite xs_mul_l, xs_add by auto. reflexivity.
  - intros. apply xs_mul_l; auto.
  - intros. apply xs_mul_l; auto.
  - intros. apply xs_upd; auto.
  - intros. apply xs_upd; auto.
  - intros. rewrite xs_mul_l, xs_mul_l, xs_mul_r, xs_xs by auto. reflexivity.
Qed.
