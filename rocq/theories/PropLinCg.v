(* Theorem C76: Gauss-Newton with conjugate gradients. *)
From Coq Require Import List Arith Bool ZArith Reals.
From Verif Require Import Num NumR Py Arr MLayout MAssign MNoise MSparse MFactor MGraph MLinear MSolver SpecLayout SpecTree SpecAssign SpecGraph SpecSparse SpecDeriv SpecSolver SpecOrder SpecInv SpecLin SpecCgLin.
From Verif Require Import Ex ExG ExS PExSym PExLin PExLinCg.
Import ListNotations.
Local Open Scope R_scope.

Theorem C76_inexact_descent :
  forall (A : coo R) rhs lambd it (tol : nat -> R), coo_ok A -> 0 <= lambd -> length rhs = fst (m_shape A) -> no_zero_column A ->
  exists c x Ax, matmul (transpose A) rhs = Ok c /\ cg_solve tol A c lambd it = Ok x /\ matmul A x = Ok Ax /\
    sumsq Ax <= vdot x c /\ sumsq (vsub Ax rhs) + sumsq Ax <= sumsq rhs /\
    (Rabs (tol it) < 1 -> c <> vzero (snd (m_shape A)) -> 0 < vdot x c).
Proof. exact inexact_descent. Qed.
Print Assumptions C76_inexact_descent.

Theorem C76_linear_gradient :
  forall (E : env R) fs g, linear_problem E fs -> well_posed E fs -> graph_make E fs = Ok g ->
  forall (tol : nat -> R) step a val c0 r0 A0, (exists cfg, step = gn_step E cfg (cg_solve tol) g) \/ (exists it, step = fixed_step E it (cg_solve tol) g) ->
  assigns E fs a val -> same_layout (as_layout a) (g_layout g) -> compute_cost E g a = Ok (c0, r0) ->
  compute_whitened_residual_jacobian E g a r0 = Ok A0 -> no_zero_column A0 ->
  exists g0, half_gradient E g (mkState 0 a c0 r0 false 0) g0 /\
  forall k st, runs step k (mkState 0 a c0 r0 false 0) st ->
    exists gk, half_gradient E g st gk /\ sumsq gk <= tolerance_product tol 0 k * tolerance_product tol 0 k * sumsq g0 /\
    current E g st /\ s_cost st <= c0 /\
    forall sigma z valz cz rz, 0 < sigma -> bounded_below sigma A0 -> assigns E fs z valz -> compute_cost E g z = Ok (cz, rz) ->
      s_cost st <= cz + tolerance_product tol 0 k * tolerance_product tol 0 k * sumsq g0 / sigma.
Proof. exact linear_inexact. Qed.
Print Assumptions C76_linear_gradient.

(* the tolerances of the two solvers of the library *)
Theorem C76_tolerances :
  forall eta t k, tolerance_product (inexact_tolerance eta) 0 k = eta ^ k / INR (fact k) /\ tolerance_product (fun _ => t) 0 k = t ^ k.
Proof. exact products. Qed.
Print Assumptions C76_tolerances.

Example C76_example : exists g c0 r0 A0, graph_make exLE chain_fs = Ok g /\ compute_cost exLE g (scalars [vx; vy] [0; 0]) = Ok (c0, r0) /\
  same_layout (as_layout (scalars (T := R) [vx; vy] [0; 0])) (g_layout g) /\
  compute_whitened_residual_jacobian exLE g (scalars [vx; vy] [0; 0]) r0 = Ok A0 /\ coo_ok A0 /\ no_zero_column A0 /\ bounded_below 1 A0.
Proof. exact chain_inexact. Qed.
