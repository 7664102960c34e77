(* Specification vocabulary: convergence of the solvers close to a solution. *)
From Coq Require Import List Arith Bool Reals.
From Verif Require Import Num NumR Py Arr MLayout MAssign MNoise MSparse MFactor MGraph MLinear MSolver SpecLayout SpecTree SpecAssign SpecGraph SpecSparse SpecDeriv SpecSolver SpecOrder SpecInv SpecLin SpecCgLin.
Import ListNotations.
Local Open Scope R_scope.

(* every variable is a plain array, retraction is addition *)
Definition plain_problem (E : env R) (fs : list (factor R)) : Prop :=
  forall v, In v (mentioned fs) -> plain_class (e_cls E (v_ty v)).

(* Euclidean distance between two choices of values *)
Definition distance (fs : list (factor R)) (val val' : var -> pytree R) : R := sqrt (distance2 fs val val').

(* Within rho of z, whose residual is rz: the Jacobian A is bounded below by m; the linearisation
   at b, evaluated at z, is off by at most K |z - b|^2; and A^T rz, which is zero at a minimum
   z, is at most S |z - b|. *)
Definition regular_near (E : env R) (fs : list (factor R)) (g : graph R) (z : assign R) (rz : list R) (rho m K S : R) : Prop :=
  forall b val c r A, assigns E fs b val -> same_layout (as_layout b) (g_layout g) -> compute_cost E g b = Ok (c, r) ->
  compute_whitened_residual_jacobian E g b r = Ok A -> let e := vsub (as_storage z) (as_storage b) in vnorm e <= rho ->
  bounded_below (m * m) A /\
  (forall Ae, matmul A e = Ok Ae -> vnorm (vsub (vadd Ae r) rz) <= K * (vnorm e * vnorm e)) /\
  (forall v Av, matmul A v = Ok Av -> vdot Av rz <= S * vnorm e * vnorm v).

(* the Jacobian is bounded above by f there *)
Definition bounded_near (E : env R) (fs : list (factor R)) (g : graph R) (z : assign R) (rho f : R) : Prop :=
  forall b val c r A, assigns E fs b val -> same_layout (as_layout b) (g_layout g) -> compute_cost E g b = Ok (c, r) ->
  compute_whitened_residual_jacobian E g b r = Ok A -> vnorm (vsub (as_storage z) (as_storage b)) <= rho ->
  forall v Av, matmul A v = Ok Av -> sumsq Av <= f * f * sumsq v.

(* s holds the values val, in the order of the graph, and its cost and residual are current *)
Definition at_values (E : env R) (fs : list (factor R)) (g : graph R) (s : sstate R) (val : var -> pytree R) : Prop :=
  assigns E fs (s_assign s) val /\ same_layout (as_layout (s_assign s)) (g_layout g) /\
  compute_cost E g (s_assign s) = Ok (s_cost s, s_res s).

(* the constants make the problem well behaved around z *)
Definition good_solution (E : env R) (fs : list (factor R)) (g : graph R) (z : assign R) (valz : var -> pytree R) (rho m K S : R) : Prop :=
  plain_problem E fs /\ well_posed E fs /\ graph_make E fs = Ok g /\ assigns E fs z valz /\ same_layout (as_layout z) (g_layout g) /\
  (exists cz rz, compute_cost E g z = Ok (cz, rz) /\ regular_near E fs g z rz rho m K S) /\
  0 < m /\ 0 <= K /\ 0 <= S /\ S + K * m * rho < m * m.

(* one iteration of Gauss-Newton, of either solver *)
Definition gauss_newton_iteration (E : env R) (g : graph R) (lin : linear_solver (T := R)) (step : sstate R -> result (sstate R)) : Prop :=
  (exists cfg, step = gn_step E cfg lin g) \/ (exists it, step = fixed_step E it lin g).
