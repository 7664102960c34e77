(* Specification vocabulary: derivative at 0 of a curve of vectors. *)
From Coq Require Import List Arith Reals.
From Verif Require Import Num NumR MLayout MAssign MNoise MFactor SpecAssign SpecGraph.
Import ListNotations.
Local Open Scope R_scope.

Definition vderiv (F : R -> list R) (d : list R) : Prop :=
  (forall t, length (F t) = length d) /\
  forall k, derivable_pt_lim (fun t => nth k (F t) 0) 0 (nth k d 0).

(* sum over the slots of a factor of (matrix of the slot) times (block of x of its variable) *)
Definition slots_times (C : cenv (T := R)) (L : layout) (x : list R) (rd : nat) (vs : list var) (Ws : list (list (list R))) : list R :=
  fold_right vadd (vzero rd) (zipw (fun v W => mvec W (block C L x v)) vs Ws).

(* noise models whose whitening is linear *)
Definition linear_noise (n : noise R) : Prop := match n with Huber _ _ => False | _ => True end.
