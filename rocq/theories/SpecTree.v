(* Specification vocabulary for variable values. *)
From Coq Require Import List Arith Bool.
From Verif Require Import Num Py Arr MLayout.
Import ListNotations.

(* every array of the tree has as many entries as its shape says *)
Definition tree_ok {T} (t : pytree T) : Prop := Forall (fun a => arr_ok a = true) (leaves t).
(* same containers and same leaf shapes *)
Definition same_shape {T} (x y : pytree T) : Prop :=
  structure x = structure y /\ map a_shape (leaves x) = map a_shape (leaves y).
(* x is a legal value of a variable of class c *)
Definition value_ok {T} (c : vclass T) (x : pytree T) : Prop := tree_ok x /\ same_shape x (vc_default c).
(* the default value of every class is a well-formed pytree *)
Definition classes_ok {T} (C : cenv (T := T)) : Prop := forall t, tree_ok (vc_default (C t)).
