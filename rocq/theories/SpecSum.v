(* Specification vocabulary: sums of squares in binary32, in any order of evaluation. *)
From Coq Require Import List Reals.
From Flocq Require Import Core.Core IEEE754.BinarySingleNaN.
From Verif Require Import Num NumB32.
Import ListNotations.
Local Open Scope R_scope.

(* One way of evaluating jnp.sum(r ** 2): XLA may split the sum as it likes, start from zero
   any number of times, and contract a square and an addition into a fused multiply-add. *)
Inductive stree : Type :=
| TZero
| TSq (x : b32)
| TAdd (l r : stree)
| TFma (x : b32) (t : stree).

Fixpoint teval (t : stree) : b32 :=
  match t with
  | TZero => B754_zero false
  | TSq x => Bmult mode_NE x x
  | TAdd l r => Bplus mode_NE (teval l) (teval r)
  | TFma x t => Bfma mode_NE x x (teval t)
  end.
(* the components summed *)
Fixpoint leaves (t : stree) : list b32 :=
  match t with
  | TZero => []
  | TSq x => [x]
  | TAdd l r => leaves l ++ leaves r
  | TFma x t => x :: leaves t
  end.
(* the largest number of roundings any component goes through *)
Fixpoint height (t : stree) : nat :=
  match t with
  | TZero => 0
  | TSq x => 1
  | TAdd l r => S (Nat.max (height l) (height r))
  | TFma x t => S (height t)
  end.

(* the sum of squares in exact arithmetic *)
Definition exact_cost (r : list b32) : R := fold_right (fun x s => B2R x * B2R x + s) 0 r.
(* unit roundoff, and half the smallest positive number *)
Definition uro : R := bpow radix2 (-24).
Definition tiny : R := bpow radix2 (-150).
(* the error allowed after h roundings of m squares of exact sum e *)
Definition error_bound (h m : nat) (e : R) : R := ((1 + uro) ^ h - 1) * e + (1 + uro) ^ h * (INR m * tiny).
Definition max_float : R := bpow radix2 128 - bpow radix2 104.
