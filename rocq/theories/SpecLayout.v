(* Specification vocabulary for layouts: no model function is used here. *)
From Coq Require Import List Arith Bool.
From Verif Require Import Py MLayout.
Import ListNotations.

(* the distinct elements of a list, in order of first occurrence *)
Fixpoint firsts {K} `{Eqb K} (l : list K) : list K :=
  match l with
  | [] => []
  | x :: r => x :: filter (fun y => negb (eqb y x)) (firsts r)
  end.

(* the variables of one type, in the given order *)
Definition of_type (t : vty) (vs : list var) : list var := filter (fun v => Nat.eqb (v_ty v) t) vs.

(* sum of a dimension over a list *)
Definition total {A} (dim : A -> nat) (l : list A) : nat := fold_right (fun x s => dim x + s) 0 l.

(* consecutive placement: every element with its start offset *)
Fixpoint place {A} (dim : A -> nat) (i : nat) (l : list A) : list (A * nat) :=
  match l with [] => [] | x :: r => (x, i) :: place dim (i + dim x) r end.
