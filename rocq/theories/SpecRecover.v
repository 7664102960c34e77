(* Specification vocabulary for iterations that leave the assignment alone. *)
From Coq Require Import List Arith Bool ZArith Reals.
From Verif Require Import Num NumR Py Arr MLayout MAssign MNoise MSparse MFactor MGraph MLinear MSolver SpecLayout SpecTree SpecAssign SpecGraph SpecSparse SpecSolver SpecOrder SpecDescent.
Import ListNotations.
Local Open Scope R_scope.

(* the iteration from s to s' changed neither the assignment nor its cost *)
Definition stays (s s' : sstate R) : Prop := s_assign s' = s_assign s /\ s_cost s' = s_cost s.

(* n consecutive iterations, all of which leave the assignment alone, the sum of squares of the
   residual kept by the state never exceeding B *)
Inductive stuck (B : R) (step : sstate R -> result (sstate R)) : nat -> sstate R -> sstate R -> Prop :=
| stuck_O s : stuck B step 0 s s
| stuck_S n s s' s'' : step s = Ok s' -> stays s s' -> sumsq (s_res s) <= B -> stuck B step n s' s'' -> stuck B step (S n) s s''.

(* the assignment a of the graph of fs is not stationary: it has cost c0 and residual r0, and the
   negative gradient ng = A^T (-r0) is not zero. The Jacobian A of the loop body depends on the
   assignment alone (which holds unless a noise model rescales by the current residual), its norm
   is bounded by sqrt F, and K bounds the curvature at a. *)
Record slope (E : env R) (fs : list (factor R)) (g : graph R) (a : assign R) (c0 : R) (r0 : list R) (A : coo R) (ng : list R) (F K : R) : Prop := {
  sl_classes : classes_ok (e_cls E);
  sl_factors : forall f, In f fs -> factor_ok f;
  sl_graph : graph_make E fs = Ok g;
  sl_shaped : well_shaped E fs;
  sl_rows : total residual_dim fs <> 0%nat;
  sl_values : exists val, assigns E fs a val;
  sl_layout : same_layout (as_layout a) (g_layout g);
  sl_cost : compute_cost E g a = Ok (c0, r0);
  sl_jacobian : forall r, length r = length r0 -> compute_whitened_residual_jacobian E g a r = Ok A;
  sl_F : 0 <= F;
  sl_norm : norm_le F A;
  sl_K : 0 <= K;
  sl_curvature : curvature_le E g a r0 A K;
  sl_gradient : matmul (transpose A) (vneg r0) = Ok ng;
  sl_slope : ng <> vzero (length ng) }.
