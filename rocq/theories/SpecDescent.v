(* Specification vocabulary: how much the trust-region solvers lower the cost. *)
From Coq Require Import List Arith Reals.
From Verif Require Import Num NumR Py Arr MLayout MAssign MSparse MFactor MGraph MLinear MSolver SpecSparse SpecSolver.
Import ListNotations.
Local Open Scope R_scope.

(* |A x|^2 <= F |x|^2 *)
Definition norm_le (F : R) (A : coo R) : Prop :=
  forall x y, matmul A x = Ok y -> sumsq y <= F * sumsq x.

(* an uninterrupted sequence of accepted iterations, with the Jacobian, the negative gradient
   A^T (-r) and the damping or radius of each *)
Inductive accepted (E : env R) (g : graph R) (step : graph R -> sstate R -> result (sstate R)) (qmin : R) :
    list (coo R * list R * R) -> sstate R -> sstate R -> Prop :=
| acc_nil s : accepted E g step qmin [] s s
| acc_cons s s' s'' A d prop c r q ng l : step g s = Ok s' -> trust_step E g qmin s s' A d prop c r q -> qmin <= q ->
    matmul (transpose A) (vneg (s_res s)) = Ok ng -> accepted E g step qmin l s' s'' ->
    accepted E g step qmin ((A, ng, s_extra s) :: l) s s''.

(* the residual along retractions from a differs from its linearisation r + A d by at most
   K |d|^2 *)
Definition curvature_le (E : env R) (g : graph R) (a : assign R) (r : list R) (A : coo R) (K : R) : Prop :=
  forall d Ad prop c r', matmul A d = Ok Ad -> manifold_retract (e_cls E) a (mkAssign d (g_local_layout g)) = Ok prop ->
    compute_cost E g prop = Ok (c, r') -> sqrt (sumsq (vsub r' (vadd Ad r))) <= K * sumsq d.
