(** * Arithmetic interface of the model.

    The Python code computes with numpy float64 arrays.  Every model function in this development is
    written once, over the operations collected in [Num]; nothing is assumed about them.  A theorem
    quantified over all [N : Num] therefore applies to IEEE-754 binary64 arithmetic as well as to exact
    arithmetic.  Two instances used in proofs are defined here:

    - [XR]: exact real numbers extended with +inf, -inf and NaN (IEEE propagation rules, no rounding,
      one unsigned zero: a division by zero takes the sign of its numerator, i.e. zeros count as +0);
    - [RN]: plain real numbers.  Used for linear algebra only, where divisors are provably non-zero. *)

From Coq Require Import Reals Lra ZArith List Bool.
Import ListNotations.

Class Num : Type := {
  num : Type;
  n0 : num;                        (* 0.0 *)
  n1 : num;                        (* 1.0 *)
  nnan : num;                      (* np.nan *)
  nadd : num -> num -> num;
  nsub : num -> num -> num;
  nmul : num -> num -> num;
  ndiv : num -> num -> num;
  nopp : num -> num;
  nsqrt : num -> num;              (* np.sqrt *)
  nexp : num -> num;               (* np.exp *)
  nln : num -> num;                (* np.log *)
  npow : num -> nat -> num;        (* np.power(x, k) with an integer k >= 0 *)
  nmax : num -> num -> num;        (* np.maximum: NaN if either argument is NaN *)
  nmin : num -> num -> num;        (* np.minimum *)
  nisnan : num -> bool;            (* np.isnan *)
  nis0 : num -> bool;              (* x == 0 (False for NaN) *)
  nltb : num -> num -> bool;       (* x < y (False if either is NaN) *)
  nofnat : nat -> num              (* float(k) *)
}.

Declare Scope num_scope.
Delimit Scope num_scope with num.
Infix "+" := nadd : num_scope.
Infix "-" := nsub : num_scope.
Infix "*" := nmul : num_scope.
Infix "/" := ndiv : num_scope.
Notation "- x" := (nopp x) : num_scope.

(** ** Exact arithmetic with special values *)

Inductive xr : Type := Fin (r : R) | PInf | NInf | NaN.

(** Sign-based product/quotient of infinities: [inf_sgn s] is +inf, -inf or NaN for s >0, <0, =0. *)
Definition inf_sgn (s : R) : xr :=
  if Rlt_dec 0 s then PInf else if Rlt_dec s 0 then NInf else NaN.

Definition xopp (x : xr) : xr :=
  match x with Fin r => Fin (- r) | PInf => NInf | NInf => PInf | NaN => NaN end.

Definition xadd (x y : xr) : xr :=
  match x, y with
  | NaN, _ | _, NaN => NaN
  | Fin a, Fin b => Fin (a + b)
  | Fin _, i => i
  | i, Fin _ => i
  | PInf, PInf => PInf
  | NInf, NInf => NInf
  | _, _ => NaN
  end.

Definition xsub (x y : xr) : xr := xadd x (xopp y).

Definition xmul (x y : xr) : xr :=
  match x, y with
  | NaN, _ | _, NaN => NaN
  | Fin a, Fin b => Fin (a * b)
  | Fin a, PInf | PInf, Fin a => inf_sgn a
  | Fin a, NInf | NInf, Fin a => inf_sgn (- a)
  | PInf, PInf | NInf, NInf => PInf
  | _, _ => NInf
  end.

Definition xdiv (x y : xr) : xr :=
  match x, y with
  | NaN, _ | _, NaN => NaN
  | Fin a, Fin b => if Req_EM_T b 0 then inf_sgn a else Fin (a / b)
  | Fin _, _ => Fin 0
  | PInf, Fin b => if Rlt_dec b 0 then NInf else PInf
  | NInf, Fin b => if Rlt_dec b 0 then PInf else NInf
  | _, _ => NaN
  end.

Definition xsqrt (x : xr) : xr :=
  match x with
  | Fin r => if Rlt_dec r 0 then NaN else Fin (sqrt r)
  | PInf => PInf
  | _ => NaN
  end.

Definition xexp (x : xr) : xr :=
  match x with Fin r => Fin (exp r) | PInf => PInf | NInf => Fin 0 | NaN => NaN end.

Definition xln (x : xr) : xr :=
  match x with
  | Fin r => if Rlt_dec 0 r then Fin (ln r) else if Req_EM_T r 0 then NInf else NaN
  | PInf => PInf
  | _ => NaN
  end.

Fixpoint xpow (x : xr) (k : nat) : xr :=
  match k with O => Fin 1 | S k => xmul x (xpow x k) end.

Definition xltb (x y : xr) : bool :=
  match x, y with
  | NaN, _ | _, NaN => false
  | Fin a, Fin b => if Rlt_dec a b then true else false
  | NInf, NInf => false
  | NInf, _ => true
  | _, NInf => false
  | Fin _, PInf => true
  | PInf, _ => false
  end.

Definition xisnan (x : xr) : bool := match x with NaN => true | _ => false end.
Definition xis0 (x : xr) : bool :=
  match x with Fin r => if Req_EM_T r 0 then true else false | _ => false end.

Definition xmax (x y : xr) : xr :=
  if xisnan x then NaN else if xisnan y then NaN else if xltb x y then y else x.
Definition xmin (x y : xr) : xr :=
  if xisnan x then NaN else if xisnan y then NaN else if xltb y x then y else x.

#[export] Instance XR : Num := {|
  num := xr; n0 := Fin 0; n1 := Fin 1; nnan := NaN;
  nadd := xadd; nsub := xsub; nmul := xmul; ndiv := xdiv; nopp := xopp;
  nsqrt := xsqrt; nexp := xexp; nln := xln; npow := xpow;
  nmax := xmax; nmin := xmin; nisnan := xisnan; nis0 := xis0; nltb := xltb;
  nofnat := fun k => Fin (INR k) |}.

Canonical Structure XR.

(** ** Plain reals.  [nnan] is a dummy: the functions instantiated with [RN] never use it. *)

Definition RN : Num := {|
  num := R; n0 := 0%R; n1 := 1%R; nnan := 0%R;
  nadd := Rplus; nsub := Rminus; nmul := Rmult; ndiv := Rdiv; nopp := Ropp;
  nsqrt := sqrt; nexp := exp; nln := ln; npow := pow;
  nmax := Rmax; nmin := Rmin; nisnan := fun _ => false;
  nis0 := fun r => if Req_EM_T r 0 then true else false;
  nltb := fun a b => if Rlt_dec a b then true else false;
  nofnat := INR |}.
