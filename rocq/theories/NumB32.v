(* IEEE-754 single precision as a type of its own: Flocq's binary_float 24 128, whose values are
   exactly the binary32 numbers (NumF32's carrier spec_float also has unnormalised mantissas).
   Round to nearest even.  The operations compute what NumF32's do (PB32.hom). *)
From Coq Require Import ZArith Bool Floats.SpecFloat.
From Flocq Require Import Core.FLX IEEE754.BinarySingleNaN.
From Verif Require Import Num.

Definition b32 := binary_float 24 128.
#[export] Instance prec24 : Prec_gt_0 24 := eq_refl.
#[export] Instance prec24_emax : Prec_lt_emax 24 128 := eq_refl.

Definition b_of_Z (z : Z) : b32 := binary_normalize 24 128 prec24 prec24_emax mode_NE z 0 false.
Definition bmax (a b : b32) : b32 :=
  match a, b with
  | B754_nan, _ | _, B754_nan => B754_nan
  | _, _ => if Bltb a b then b else a
  end.
Definition bmin (a b : b32) : b32 :=
  match a, b with
  | B754_nan, _ | _, B754_nan => B754_nan
  | _, _ => if Bltb b a then b else a
  end.

Definition NumB32 : Num b32 := {|
  n0 := B754_zero false; n1 := b_of_Z 1;
  nadd := Bplus mode_NE; nsub := Bminus mode_NE; nmul := Bmult mode_NE; ndiv := Bdiv mode_NE;
  nneg := Bopp; nsqrt := Bsqrt mode_NE; nabs := Babs;
  nmax := bmax; nmin := bmin; nltb := Bltb; nleb := Bleb;
  nlit := fun p q => Bdiv mode_NE (b_of_Z p) (b_of_Z (Zpos q)) |}.
