(* IEEE-754 single precision (JAX's default dtype) from the standard library's SpecFloat:
   executable, no axioms.  Round to nearest even. *)
From Coq Require Import ZArith Bool Floats.SpecFloat.
From Verif Require Import Num.
Local Open Scope Z_scope.

Definition f32 := spec_float.
Definition prec32 : Z := 24.
Definition emax32 : Z := 128.

Definition f_of_Z (z : Z) : f32 := binary_normalize prec32 emax32 z 0 false.
Definition fltb (a b : f32) : bool := SFltb a b.
Definition fleb (a b : f32) : bool := SFleb a b.
Definition fmax (a b : f32) : f32 :=
  match a, b with
  | S754_nan, _ | _, S754_nan => S754_nan
  | _, _ => if SFltb a b then b else a
  end.
Definition fmin (a b : f32) : f32 :=
  match a, b with
  | S754_nan, _ | _, S754_nan => S754_nan
  | _, _ => if SFltb b a then b else a
  end.

Definition NumF32 : Num f32 := {|
  n0 := S754_zero false; n1 := f_of_Z 1;
  nadd := SFadd prec32 emax32; nsub := SFsub prec32 emax32;
  nmul := SFmul prec32 emax32; ndiv := SFdiv prec32 emax32;
  nneg := SFopp; nsqrt := SFsqrt prec32 emax32; nabs := SFabs;
  nmax := fmax; nmin := fmin; nltb := fltb; nleb := fleb;
  nlit := fun p q => SFdiv prec32 emax32 (f_of_Z p) (f_of_Z (Zpos q)) |}.
