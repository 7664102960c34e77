(* Arithmetic interface.  The code in /repo computes with JAX / numpy scalars.
   Every model definition is parametric in this record of operations; no law is
   part of it, so theorems proved for an arbitrary [Num T] hold for floats too. *)
From Coq Require Import List ZArith Arith.
Import ListNotations.

Class Num (T : Type) : Type := {
  n0 : T;                       (* 0.0 *)
  n1 : T;                       (* 1.0 *)
  nadd : T -> T -> T;           (* + *)
  nsub : T -> T -> T;           (* - *)
  nmul : T -> T -> T;           (* * *)
  ndiv : T -> T -> T;           (* / *)
  nneg : T -> T;                (* unary - *)
  nsqrt : T -> T;               (* jnp.sqrt *)
  nabs : T -> T;                (* jnp.abs *)
  nmax : T -> T -> T;           (* jnp.maximum (propagates NaN) *)
  nmin : T -> T -> T;           (* jnp.minimum (propagates NaN) *)
  nltb : T -> T -> bool;        (* <  (false on NaN) *)
  nleb : T -> T -> bool;        (* <= (false on NaN) *)
  nlit : Z -> positive -> T     (* the literal p/q *)
}.

Section Vec.
Context {T : Type} {N : Num T}.

Definition vec := list T.

(* jnp elementwise binary operation on equal-length vectors. Simplification:
   unequal lengths truncate here (JAX raises or broadcasts); the callers that can
   meet unequal lengths check them explicitly. *)
Fixpoint zipw {A B C} (f : A -> B -> C) (l1 : list A) (l2 : list B) : list C :=
  match l1, l2 with
  | x :: r1, y :: r2 => f x y :: zipw f r1 r2
  | _, _ => []
  end.

Definition vadd (a b : list T) : list T := zipw nadd a b.
Definition vsub (a b : list T) : list T := zipw nsub a b.
Definition vmul (a b : list T) : list T := zipw nmul a b.
Definition vscale (c : T) (a : list T) : list T := map (nmul c) a.
Definition vneg (a : list T) : list T := map nneg a.
Definition vzero (n : nat) : list T := repeat n0 n.
(* jnp.sum; the summation order is unspecified in XLA, here right to left *)
Definition vsum (a : list T) : T := fold_right nadd n0 a.
Definition vsq (a : list T) : list T := map (fun x => nmul x x) a.   (* a**2 *)
Definition vdot (a b : list T) : T := vsum (vmul a b).
Definition sumsq (a : list T) : T := vsum (vsq a).                   (* jnp.sum(a**2) *)
Definition vnorm (a : list T) : T := nsqrt (sumsq a).                (* jnp.linalg.norm *)
Definition mvec (m : list (list T)) (x : list T) : list T := map (fun row => vdot row x) m.
(* column j of a matrix given as a list of rows *)
Definition mcol (j : nat) (m : list (list T)) : list T := map (fun row => nth j row n0) m.
(* m1 @ m2, m2 having c columns *)
Definition mmul (c : nat) (m1 m2 : list (list T)) : list (list T) :=
  map (fun row => map (fun j => vdot row (mcol j m2)) (seq 0 c)) m1.
(* jnp.max of a non-empty vector *)
Definition vmax (x : T) (l : list T) : T := fold_right nmax x l.
End Vec.
