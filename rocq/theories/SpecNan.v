(* Specification vocabulary for not-a-number values. *)
From Coq Require Import List Bool.
From Verif Require Import Num.
Import ListNotations.

(* the IEEE rules the solvers meet: + - * / give NaN when an argument is NaN, and every
   comparison with NaN is false *)
Record nan_arith {T : Type} (N : Num T) (isnan : T -> Prop) : Prop := {
  nan_add : forall a b, isnan a \/ isnan b -> isnan (nadd a b);
  nan_sub : forall a b, isnan a \/ isnan b -> isnan (nsub a b);
  nan_mul : forall a b, isnan a \/ isnan b -> isnan (nmul a b);
  nan_div : forall a b, isnan a \/ isnan b -> isnan (ndiv a b);
  nan_le : forall a b, isnan a \/ isnan b -> nleb a b = false;
  nan_lt : forall a b, isnan a \/ isnan b -> nltb a b = false }.

(* the IEEE rules for an infinity: x - inf is minus infinity or NaN, and minus infinity over
   itself is NaN *)
Record inf_arith {T : Type} (N : Num T) (isnan : T -> Prop) (inf minf : T) : Prop := {
  inf_sub : forall x, isnan (nsub x inf) \/ nsub x inf = minf;
  inf_div : isnan (ndiv minf minf) }.

Definition has_nan {T : Type} (isnan : T -> Prop) (l : list T) : Prop := exists x, In x l /\ isnan x.
