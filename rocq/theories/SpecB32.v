(* Specification vocabulary for binary32 arithmetic. *)
From Coq Require Import Bool Floats.SpecFloat.
From Flocq Require Import IEEE754.BinarySingleNaN.
From Verif Require Import Num NumF32 NumB32 MSolver.

(* the two binary32 instances compute the same: forgetting that a number is normalised commutes
   with every operation *)
Record hom : Prop := {
  h_0 : B2SF (n0 (Num := NumB32)) = n0 (Num := NumF32);
  h_1 : B2SF (n1 (Num := NumB32)) = n1 (Num := NumF32);
  h_add : forall x y, B2SF (nadd (Num := NumB32) x y) = nadd (Num := NumF32) (B2SF x) (B2SF y);
  h_sub : forall x y, B2SF (nsub (Num := NumB32) x y) = nsub (Num := NumF32) (B2SF x) (B2SF y);
  h_mul : forall x y, B2SF (nmul (Num := NumB32) x y) = nmul (Num := NumF32) (B2SF x) (B2SF y);
  h_div : forall x y, B2SF (ndiv (Num := NumB32) x y) = ndiv (Num := NumF32) (B2SF x) (B2SF y);
  h_neg : forall x, B2SF (nneg (Num := NumB32) x) = nneg (Num := NumF32) (B2SF x);
  h_abs : forall x, B2SF (nabs (Num := NumB32) x) = nabs (Num := NumF32) (B2SF x);
  h_sqrt : forall x, B2SF (nsqrt (Num := NumB32) x) = nsqrt (Num := NumF32) (B2SF x);
  h_max : forall x y, B2SF (nmax (Num := NumB32) x y) = nmax (Num := NumF32) (B2SF x) (B2SF y);
  h_min : forall x y, B2SF (nmin (Num := NumB32) x y) = nmin (Num := NumF32) (B2SF x) (B2SF y);
  h_ltb : forall x y, nltb (Num := NumB32) x y = nltb (Num := NumF32) (B2SF x) (B2SF y);
  h_leb : forall x y, nleb (Num := NumB32) x y = nleb (Num := NumF32) (B2SF x) (B2SF y);
  h_lit : forall p q, B2SF (nlit (Num := NumB32) p q) = nlit (Num := NumF32) p q }.

#[local] Existing Instance NumB32.
(* sensible Levenberg-Marquardt settings *)
Definition lm_params (cfg : lm_cfg b32) : Prop :=
  is_finite (lambda_max cfg) = true /\ is_finite (lambda_factor cfg) = true /\
  nleb n0 (lambda_min cfg) = true /\ nleb (lambda_min cfg) (lambda_max cfg) = true /\ nltb n1 (lambda_factor cfg) = true.
