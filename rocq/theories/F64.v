(** * Binary64 instance of the arithmetic, used to run the model (tests only, no theorem rests on it). *)

From Coq Require Import Floats List ZArith.
From Verif Require Import Num.
Import ListNotations.
Local Open Scope float_scope.

Fixpoint fpow (x : float) (k : nat) : float :=
  match k with O => 1 | S k => x * fpow x k end.

Fixpoint fofnat (k : nat) : float :=
  match k with O => 0 | S k => fofnat k + 1 end.

(** exp by Taylor series after halving the argument ten times; ln by the atanh series (only ever used
    near 2).  Not correctly rounded: enough for comparing against printed reference values. *)
Definition fexp (x : float) : float :=
  let y := x / 1024 in
  let t := 1 + y * (1 + y / 2 * (1 + y / 3 * (1 + y / 4 * (1 + y / 5 * (1 + y / 6))))) in
  Nat.iter 10 (fun a => a * a) t.

Fixpoint atanh_ser (fuel : nat) (z2 p d : float) : float :=
  match fuel with O => 0 | S f => p / d + atanh_ser f z2 (p * z2) (d + 2) end.
Definition fln (x : float) : float :=
  let z := (x - 1) / (x + 1) in 2 * atanh_ser 40 (z * z) z 1.

Definition fmaximum (x y : float) : float :=
  if is_nan x then nan else if is_nan y then nan else if x <? y then y else x.
Definition fminimum (x y : float) : float :=
  if is_nan x then nan else if is_nan y then nan else if y <? x then y else x.

Definition F64 : Num := {|
  num := float; n0 := 0; n1 := 1; nnan := nan;
  nadd := PrimFloat.add; nsub := PrimFloat.sub; nmul := PrimFloat.mul; ndiv := PrimFloat.div;
  nopp := PrimFloat.opp; nsqrt := PrimFloat.sqrt; nexp := fexp; nln := fln; npow := fpow;
  nmax := fmaximum; nmin := fminimum; nisnan := PrimFloat.is_nan;
  nis0 := fun x => x =? 0; nltb := PrimFloat.ltb; nofnat := fofnat |}.

(** |a - b| <= rtol * |b| *)
Definition close (rtol a b : float) : bool := abs (a - b) <=? rtol * abs b.
