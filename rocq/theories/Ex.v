(* Concrete variable classes and assignments used by the examples and counterexamples. *)
From Coq Require Import List Arith Bool ZArith.
From Verif Require Import Num Py Arr MLayout MAssign.
Import ListNotations.

Section Ex.
Context {T : Type} {N : Num T}.
Definition lit (z : Z) : T := nlit z 1.
Definition leaf1 (l : list T) : pytree T := Leaf (mkArr [length l] l).

(* type 0: a plain 2-vector; type 1: a structured value with 6 parameters (two leaves) and a
   3-dimensional tangent space; every other type: a scalar *)
Definition ex_vec2 : vclass T := mkVclass (leaf1 [n0; n0]) None None.
Definition ex_pose_default : pytree T :=
  Node 7 [leaf1 [n1; n0; n0; n0]; Node 3 [Leaf (mkArr [1; 2] [n0; n0])]].
Definition ex_pose : vclass T :=
  mkVclass ex_pose_default (Some 3)
    (Some (fun x d => if Nat.eqb (length d) 3
                      then Ok (fst (unravel ex_pose_default (vadd (ravel x) (d ++ [n0; n0; n0]))))
                      else Err ValueError)).
Definition ex_scalar : vclass T := mkVclass (leaf1 [n0]) None None.
Definition exC : cenv := fun t => match t with 0 => ex_vec2 | 1 => ex_pose | _ => ex_scalar end.

Definition va : var := mkVar 0 0.
Definition vb : var := mkVar 1 1.
Definition vc : var := mkVar 2 0.
Definition vd : var := mkVar 3 1.
Definition ve : var := mkVar 4 2.
Definition ex_vars : list var := [va; vb; vc; vd].
End Ex.
