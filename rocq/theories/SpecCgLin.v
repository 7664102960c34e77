(* Specification vocabulary: gradients, and the tolerances of successive linear solves. *)
From Coq Require Import List Arith Bool Reals.
From Verif Require Import Num NumR Py Arr MLayout MAssign MNoise MSparse MFactor MGraph MSolver SpecSparse.
Import ListNotations.
Local Open Scope R_scope.

(* A^T r at a state: half the gradient of the cost *)
Definition half_gradient (E : env R) (g : graph R) (s : sstate R) (gr : list R) : Prop :=
  exists A, compute_whitened_residual_jacobian E g (s_assign s) (s_res s) = Ok A /\ matmul (transpose A) (s_res s) = Ok gr.

(* every coordinate influences some residual *)
Definition no_zero_column (A : coo R) : Prop :=
  forall j, (j < snd (m_shape A))%nat -> exists r v, In (r, j, v) (triples A) /\ v <> 0.

(* tol i * tol (i+1) * ... , k factors *)
Fixpoint tolerance_product (tol : nat -> R) (i k : nat) : R :=
  match k with O => 1 | S k' => tol i * tolerance_product tol (S i) k' end.

(* A^T A is bounded below by sigma *)
Definition bounded_below (sigma : R) (A : coo R) : Prop :=
  forall y Ay, length y = snd (m_shape A) -> matmul A y = Ok Ay -> sigma * sumsq y <= sumsq Ay.
