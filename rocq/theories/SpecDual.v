(* Specification vocabulary: programs over the reals and where they are differentiable. *)
From Coq Require Import List Arith Bool ZArith Reals.
From Verif Require Import Num NumR Py Arr MLayout MAssign MDual SpecTree.
Import ListNotations.
Local Open Scope R_scope.

Definition real_funs : funs R := mkFuns sin cos exp.

(* the real number a program denotes, without reference to the arithmetic interface *)
Fixpoint denote (inp par : nat -> R) (e : expr) : R :=
  match e with
  | Inp k => inp k
  | Par k => par k
  | Lit p q => IZR p / IZR (Zpos q)
  | Add a b => denote inp par a + denote inp par b
  | Sub a b => denote inp par a - denote inp par b
  | Mul a b => denote inp par a * denote inp par b
  | Div a b => denote inp par a / denote inp par b
  | Neg a => - denote inp par a
  | Sqrt a => sqrt (denote inp par a)
  | Abs a => Rabs (denote inp par a)
  | Max a b => Rmax (denote inp par a) (denote inp par b)
  | Min a b => Rmin (denote inp par a) (denote inp par b)
  | Sin a => sin (denote inp par a)
  | Cos a => cos (denote inp par a)
  | Exp a => exp (denote inp par a)
  end.

(* no division by zero, no square root of a non-positive number, no kink of abs, max, min *)
Fixpoint smooth (inp par : nat -> R) (e : expr) : Prop :=
  match e with
  | Inp _ | Par _ | Lit _ _ => True
  | Add a b | Sub a b | Mul a b => smooth inp par a /\ smooth inp par b
  | Div a b => smooth inp par a /\ smooth inp par b /\ denote inp par b <> 0
  | Neg a | Sin a | Cos a | Exp a => smooth inp par a
  | Sqrt a => smooth inp par a /\ 0 < denote inp par a
  | Abs a => smooth inp par a /\ denote inp par a <> 0
  | Max a b | Min a b => smooth inp par a /\ smooth inp par b /\ denote inp par a <> denote inp par b
  end.

(* the retraction of class c is the program es *)
Definition retracts_by (c : vclass R) (es : list expr) : Prop :=
  length es = param_dim c /\
  forall x d, value_ok c x -> length d = local_dim c ->
    exists y, retract c x d = Ok y /\ value_ok c y /\ ravel y = map (denote (fun k => nth k d 0) (fun k => nth k (ravel x) 0)) es.
