(* Specification vocabulary for the caches and for the variable-value tuples. *)
From Coq Require Import List Arith Bool ZArith.
From Verif Require Import Num Py Arr MLayout MMisc.
Import ListNotations.

(* q is the pattern of the first solve made at address a, at position j of the history *)
Definition first_solve (os : list cop) (a : addr) (j : nat) (q : pattern) : Prop :=
  nth_error os j = Some (CSolve a q) /\ forall k p, k < j -> nth_error os k <> Some (CSolve a p).

(* the number a subscript of RealVectorVariable[...] stands for, and whether Python counts it as an int *)
Inductive stands_for : pykey -> Z -> Prop :=
| sf_int z : stands_for (KInt z) z
| sf_true : stands_for (KBool true) 1
| sf_false : stands_for (KBool false) 0
| sf_float z : stands_for (KFloat z) z.
Inductive int_object : pykey -> Prop :=
| io_int z : int_object (KInt z)
| io_bool b : int_object (KBool b).

Section Tuple.
Context {V : Type}.
Variable isinstance : V -> nat -> bool.
(* a value fits an element type *)
Definition fits (v : V) (e : elt) : Prop := match e with TyElt t => isinstance v t = true | TyEllipsis => False end.
(* Tuple[e, ...] *)
Definition variadic (ts : list elt) (e : elt) : Prop := ts = [e; TyEllipsis].
(* the values match the element types of the hint *)
Definition matches (ts : list elt) (vs : list V) : Prop :=
  (exists e, variadic ts e /\ Forall (fun v => fits v e) vs) \/
  ((forall e, ~ variadic ts e) /\ Forall2 fits vs ts).
(* no Ellipsis other than the second element of Tuple[X, ...] *)
Definition sane (ts : list elt) : Prop := (exists t, variadic ts (TyElt t)) \/ ~ In TyEllipsis ts.
End Tuple.
