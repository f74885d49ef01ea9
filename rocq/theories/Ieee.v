(** * IEEE-754 binary64: the arithmetic numpy computes with.

    [IEEE L] is the instance of [Num] for numpy float64 arrays: +, -, *, / and sqrt are the correctly rounded operations of
    the standard (round to nearest, ties to even) as formalised in Flocq, with one NaN; exp, log and integer powers are not
    fixed by the standard and are taken from an arbitrary library [L]. *)
From Coq Require Import ZArith Reals Bool List.
From Flocq Require Import Core BinarySingleNaN.
From Verif Require Import Num.

Definition b64 : Type := binary_float 53 1024.
Global Instance prec53 : Prec_gt_0 53 := eq_refl.
Global Instance emax1024 : Prec_lt_emax 53 1024 := eq_refl.

(** What np.exp, np.log and np.power(x, k) return. *)
Record libm : Type := { m_exp : b64 -> b64; m_ln : b64 -> b64; m_pow : b64 -> nat -> b64 }.

Definition f1 : b64 := Bone.
Definition f0 : b64 := B754_zero false.
Definition fadd : b64 -> b64 -> b64 := Bplus mode_NE.
Definition fsub : b64 -> b64 -> b64 := Bminus mode_NE.
Definition fmul : b64 -> b64 -> b64 := Bmult mode_NE.
Definition fdiv : b64 -> b64 -> b64 := Bdiv mode_NE.
Definition fsqrt : b64 -> b64 := Bsqrt mode_NE.
Fixpoint fof (k : nat) : b64 := match k with O => f0 | S k => fadd (fof k) f1 end.

Definition IEEE (L : libm) : Num := {|
  num := b64; n0 := f0; n1 := f1; nnan := B754_nan;
  nadd := fadd; nsub := fsub; nmul := fmul; ndiv := fdiv; nopp := Bopp; nsqrt := fsqrt;
  nexp := m_exp L; nln := m_ln L; npow := m_pow L;
  nmax := fun x y => if is_nan x then B754_nan else if is_nan y then B754_nan else if Bltb x y then y else x;
  nmin := fun x y => if is_nan x then B754_nan else if is_nan y then B754_nan else if Bltb y x then y else x;
  nisnan := is_nan; nis0 := fun x => Beqb x f0; nltb := Bltb; nofnat := fof |}.
