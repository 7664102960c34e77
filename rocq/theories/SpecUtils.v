(* Specification vocabulary for utils.py: elements of arrays by their indices, leaves of trees
   by their paths. *)
From Coq Require Import List Arith Bool ZArith.
From Verif Require Import Num Py Arr.
Import ListNotations.

(* position of an element in row-major order *)
Fixpoint offset (s idx : list nat) : nat :=
  match s, idx with
  | _ :: s', i :: r => i * size s' + offset s' r
  | _, _ => 0
  end.
(* an index into an array of shape s *)
Definition valid (s idx : list nat) : Prop := Forall2 lt idx s.
Definition element {T} (a : arr T) (idx : list nat) : option T := nth_error (a_data a) (offset (a_shape a) idx).

(* axis, counted from the end if negative, is the dimension k of an nd-dimensional array *)
Definition axis_is (nd : nat) (axis : Z) (k : nat) : Prop :=
  k < nd /\ (axis = Z.of_nat k \/ axis = Z.of_nat k - Z.of_nat nd)%Z.

(* the leaf at the end of a path of child numbers *)
Fixpoint leaf_at {T} (t : pytree T) (p : list nat) : option (arr T) :=
  match p, t with
  | [], Leaf a => Some a
  | i :: r, Node _ cs => match nth_error cs i with Some c => leaf_at c r | None => None end
  | _, _ => None
  end.
Definition leaves_at {T} (ts : list (pytree T)) (p : list nat) (l : list (arr T)) : Prop := Forall2 (fun t a => leaf_at t p = Some a) ts l.

(* b is the stack of l along dimension k, c their concatenation *)
Definition stacked {T} (k : nat) (l : list (arr T)) (b : arr T) : Prop :=
  arr_ok b = true /\ forall a, In a l -> k <= length (a_shape a) /\
    a_shape b = firstn k (a_shape a) ++ length l :: skipn k (a_shape a) /\
    forall j idx, nth_error l j = Some a -> valid (a_shape a) idx -> element b (firstn k idx ++ j :: skipn k idx) = element a idx.
Definition joined {T} (k : nat) (l : list (arr T)) (b : arr T) : Prop :=
  arr_ok b = true /\ forall a, In a l -> k < length (a_shape a) /\
    a_shape b = firstn k (a_shape a) ++ list_sum (map (fun c => nth k (a_shape c) 0) l) :: skipn (S k) (a_shape a) /\
    forall j idx, nth_error l j = Some a -> valid (a_shape a) idx ->
      element b (firstn k idx ++ (list_sum (map (fun c => nth k (a_shape c) 0) (firstn j l)) + nth k idx 0) :: skipn (S k) idx) = element a idx.
