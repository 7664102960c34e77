(* Specification vocabulary for evaluating factors by hand. *)
From Coq Require Import List Arith Bool ZArith.
From Verif Require Import Num Py Arr MLayout MAssign MNoise MFactor MMisc SpecMisc.
Import ListNotations.

(* the hint of the residual function admits the values: a NamedTuple with as many fields, or a
   Tuple, whose element types match *)
Definition admits {T} (isinstance : pytree T -> nat -> bool) (h : hint) (vs : list (pytree T)) : Prop :=
  match h with
  | NoHint => False
  | HNamed _ ts => length ts = length vs /\ matches isinstance ts vs
  | HTuple ts => matches isinstance ts vs
  end.
(* the values, wrapped as the hint says *)
Definition wrapped {V} (h : hint) (vs : list V) : vtuple V := match h with HNamed tag _ => Named tag vs | _ => Plain vs end.
