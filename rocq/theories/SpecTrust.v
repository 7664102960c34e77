(* Specification vocabulary: the trust-region solvers close to an exact fit. *)
From Coq Require Import List Arith Bool Reals.
From Verif Require Import Num NumR Py Arr MLayout MAssign MSparse MFactor MGraph MLinear MSolver SpecLayout SpecTree SpecAssign SpecGraph SpecSparse SpecDeriv SpecSolver SpecInv SpecLin SpecDescent SpecLocal.
Import ListNotations.
Local Open Scope R_scope.

(* between any two choices of values within rho of z, the residual differs from its linearisation
   by at most L |b' - b|^2 *)
Definition taylor_near (E : env R) (fs : list (factor R)) (g : graph R) (z : assign R) (rho L : R) : Prop :=
  forall b val c r A b' val' c' r', assigns E fs b val -> same_layout (as_layout b) (g_layout g) -> compute_cost E g b = Ok (c, r) ->
  compute_whitened_residual_jacobian E g b r = Ok A -> assigns E fs b' val' -> same_layout (as_layout b') (g_layout g) -> compute_cost E g b' = Ok (c', r') ->
  vnorm (vsub (as_storage z) (as_storage b)) <= rho -> vnorm (vsub (as_storage z) (as_storage b')) <= rho ->
  let d := vsub (as_storage b') (as_storage b) in forall Ad, matmul A d = Ok Ad -> vnorm (vsub r' (vadd Ad r)) <= L * sumsq d.

(* z fits exactly, and around it the problem is well behaved, with these constants *)
Definition exact_solution (E : env R) (fs : list (factor R)) (g : graph R) (z : assign R) (valz : var -> pytree R) (rho m K f L : R) : Prop :=
  0 < rho /\ good_solution E fs g z valz rho m K 0 /\ (exists rz, compute_cost E g z = Ok (0, rz)) /\
  0 <= f /\ bounded_near E fs g z rho f /\ 0 <= L /\ taylor_near E fs g z rho L.

(* k iterations from s, holding val, to s': the cost has shrunk by th^k and the squared distance to
   valz by M th^k, and, unless s' is at valz exactly, every one of the k iterations was accepted *)
Definition converging_run (E : env R) (fs : list (factor R)) (g : graph R) (valz : var -> pytree R) (step : graph R -> sstate R -> result (sstate R))
    (qmin M th : R) (k : nat) (s : sstate R) (val : var -> pytree R) (s' : sstate R) : Prop :=
  exists val', at_values E fs g s' val' /\ s_cost s' <= th ^ k * s_cost s /\ distance2 fs val' valz <= M * th ^ k * distance2 fs val valz /\
    ((distance2 fs val' valz = 0 /\ s_cost s' = 0) \/ exists l, length l = k /\ accepted E g step qmin l s s').
