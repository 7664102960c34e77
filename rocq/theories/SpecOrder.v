(* Specification vocabulary for the order independence of solve(). *)
From Coq Require Import List Arith Bool ZArith Reals.
From Verif Require Import Num NumR Py Arr MLayout MAssign MNoise MSparse MFactor MGraph MLinear MSolver SpecLayout SpecTree SpecAssign SpecGraph.
Import ListNotations.
Local Open Scope R_scope.

(* the user supplied functions of a problem return arrays of the documented shapes: residual
   functions and Jacobians for all legal values of the variables, retractions for all legal
   values and all tangent vectors *)
Record well_shaped {T} {N : Num T} (E : env T) (fs : list (factor T)) : Prop := {
  ws_residual : forall val f, (forall v, In v (mentioned fs) -> value_ok (e_cls E (v_ty v)) (val v)) -> In f fs -> residual_shape_ok E val f;
  ws_jacobian : forall val f, (forall v, In v (mentioned fs) -> value_ok (e_cls E (v_ty v)) (val v)) -> In f fs -> jacobian_shape_ok E val f;
  ws_retract : forall v x d, In v (mentioned fs) -> value_ok (e_cls E (v_ty v)) x -> length d = vldim (e_cls E) v ->
    exists y, retract (e_cls E (v_ty v)) x d = Ok y /\ value_ok (e_cls E (v_ty v)) y }.

(* solve() of the three convergence-controlled solvers with CholmodSolver; for
   Levenberg-Marquardt the damping settings are positive *)
Inductive cholmod_solver (E : env R) : (nat -> graph R -> assign R -> option (result (assign R))) -> Prop :=
| chol_gn cfg : cholmod_solver E (fun fuel => gn_solve E fuel cfg cholmod_solve)
| chol_lm cfg : 0 < lambda_initial cfg -> 0 < lambda_factor cfg -> 0 < lambda_min cfg ->
    cholmod_solver E (fun fuel => lm_solve E fuel cfg cholmod_solve)
| chol_dl cfg : cholmod_solver E (fun fuel => dl_solve E fuel cfg cholmod_solve).

(* two calls with the same outcome: both still running, the same exception, or results in
   which every variable has the same value *)
Definition same_outcome (E : env R) (fs : list (factor R)) (o o' : option (result (assign R))) : Prop :=
  match o, o' with
  | None, None => True
  | Some (Err e), Some (Err e') => e = e'
  | Some (Ok a), Some (Ok a') => exists val, assigns E fs a val /\ assigns E fs a' val
  | _, _ => False
  end.
