(* The helpers of utils.py. *)
From Coq Require Import List Arith Bool ZArith String Reals.
From Verif Require Import Num NumR NumF32 Py Arr MUtils SpecTree SpecUtils Ex PExUtils.
Import ListNotations.
Local Open Scope string_scope.
Local Open Scope list_scope.


Theorem C92_stack : forall (T : Type) axis (ts : list (pytree T)), Forall tree_ok ts ->
  (ts = [] -> pytree_stack axis ts = Err TypeError) /\
  (ts <> [] -> (exists t, pytree_stack axis ts = Ok t) <->
     (forall x y, In x ts -> In y ts -> structure x = structure y) /\
     (forall p l, leaves_at ts p l -> exists s k, Forall (fun a => a_shape a = s) l /\ axis_is (S (List.length s)) axis k)) /\
  (forall t, pytree_stack axis ts = Ok t -> (forall x, In x ts -> structure t = structure x) /\
     forall p l, leaves_at ts p l -> exists b k, leaf_at t p = Some b /\ stacked k l b /\ forall a, In a l -> axis_is (S (List.length (a_shape a))) axis k).
Proof. exact stack_axis_trees. Qed.
Print Assumptions C92_stack.

Theorem C92_concatenate : forall (T : Type) axis (ts : list (pytree T)), Forall tree_ok ts ->
  (ts = [] -> pytree_concatenate axis ts = Err TypeError) /\
  (ts <> [] -> (exists t, pytree_concatenate axis ts = Ok t) <->
     (forall x y, In x ts -> In y ts -> structure x = structure y) /\
     (forall p l, leaves_at ts p l -> exists s1 s2, axis_is (S (List.length (s1 ++ s2))) axis (List.length s1) /\ Forall (fun a => exists d, a_shape a = s1 ++ d :: s2) l)) /\
  (forall t, pytree_concatenate axis ts = Ok t -> (forall x, In x ts -> structure t = structure x) /\
     forall p l, leaves_at ts p l -> exists b k, leaf_at t p = Some b /\ joined k l b /\ forall a, In a l -> axis_is (List.length (a_shape a)) axis k).
Proof. exact concat_axis_trees. Qed.
Print Assumptions C92_concatenate.

Theorem C92_default : forall (T : Type) (h : pytree T) ts, Forall tree_ok (h :: ts) -> pytree_stack 0 (h :: ts) = tree_stack h (h :: ts).
Proof. exact stack_default. Qed.
Print Assumptions C92_default.

Theorem C92_stopwatch : forall (T A : Type) (N : Num T) (clock : nat -> T) label (b : block T A) n r out m, b (S n) = (r, out, m) ->
  fst (fst (stopwatch clock label b n)) = r /\
  ((exists x, r = Ok x) -> stopwatch clock label b n = (r, [Rule; Running label] ++ out ++ [Seconds (nsub (clock m) (clock n)); Rule], S m)) /\
  ((exists e, r = Err e) -> stopwatch clock label b n = (r, [Rule; Running label] ++ out, m)).
Proof. exact watch. Qed.
Print Assumptions C92_stopwatch.

Theorem C92_time : forall (A : Type) (clock : nat -> R) label (b : block R A) n x out m, b (S n) = (Ok x, out, m) -> S n <= m -> (forall i j, i <= j -> (clock i <= clock j)%R) ->
  exists t, snd (fst (stopwatch clock label b n)) = [Rule; Running label] ++ out ++ [Seconds t; Rule] /\ (0 <= t)%R /\ t = (clock m - clock n)%R.
Proof. exact watch_time. Qed.
Print Assumptions C92_time.

Theorem C92_refuted : exists (clock : nat -> R) (b : block R nat) out, b 1 = (Err ValueError, [], 1) /\ snd (fst (stopwatch clock "a" b 0)) = out /\ out = [Rule; Running "a"].
Proof. exact watch_open. Qed.
Print Assumptions C92_refuted.

(* non-vacuity: two trees with leaves of different shapes *)
#[local] Existing Instance NumF32.
Example C92_example : Forall tree_ok [tr1; tr2] /\
  pytree_stack 1 [tr1; tr2] = Ok (Node 5 [Leaf (grid [2; 2; 3] [1; 2; 3; 11; 12; 13; 4; 5; 6; 14; 15; 16]%Z); Leaf (grid [2; 2; 1] [7; 17; 8; 18]%Z)]) /\
  pytree_concatenate (-1) [tr1; tr2] = Ok (Node 5 [Leaf (grid [2; 6] [1; 2; 3; 11; 12; 13; 4; 5; 6; 14; 15; 16]%Z); Leaf (grid [2; 2] [7; 17; 8; 18]%Z)]) /\
  pytree_stack 3 [tr1; tr2] = Err ValueError /\ pytree_concatenate 0 [Leaf (grid [] [1]%Z)] = Err ValueError /\ pytree_stack 0 [tr1; Leaf (grid [1] [1]%Z)] = Err ValueError.
Proof. exact ex_axes. Qed.
