(* Specification vocabulary: problems carrying the same information. *)
From Coq Require Import List Arith Bool ZArith Reals.
From Verif Require Import Num NumR Py Arr MLayout MAssign MNoise MSparse MFactor MGraph MLinear MSolver SpecLayout SpecTree SpecAssign SpecGraph SpecSparse SpecNoise SpecDeriv SpecOrder.
Import ListNotations.
Local Open Scope R_scope.

(* matrices of one factor times a tangent vector given variable by variable *)
Definition pushed (rd : nat) (vs : list var) (Js : list (list (list R))) (xi : var -> list R) : list R :=
  fold_right vadd (vzero rd) (zipw (fun v J => mvec J (xi v)) vs Js).

(* The squared length of the linearised whitened residual of one factor: Jacobian at val,
   residual (and Huber weight) at old, tangent vector xi.  Gauss-Newton uses old = val;
   after a rejected step the trust-region solvers do not (C33). *)
Definition model_at (E : env R) (val old : var -> pytree R) (xi : var -> list R) (f : factor R) : R :=
  match whitened_at E old f with
  | Ok w => match whitened_jacobians_at E val f w with
            | Ok Js => sumsq (vadd (pushed (residual_dim f) (f_vars f) Js xi) w)
            | Err _ => 0
            end
  | Err _ => 0
  end.

(* the two lists of factors are about the same variables, and the sums of the linearised
   squared residuals agree at all legal values *)
Definition same_information (E : env R) (fs fs' : list (factor R)) : Prop :=
  (forall v, In v (mentioned fs) <-> In v (mentioned fs')) /\
  forall val old xi,
    (forall v, In v (mentioned fs) -> value_ok (e_cls E (v_ty v)) (val v)) ->
    (forall v, In v (mentioned fs) -> value_ok (e_cls E (v_ty v)) (old v)) ->
    (forall v, In v (mentioned fs) -> length (xi v) = vldim (e_cls E) v) ->
    vsum (map (model_at E val old xi) fs) = vsum (map (model_at E val old xi) fs').

(* CholmodSolver, and the conjugate gradient solvers with any tolerance schedule *)
Inductive library_linear : linear_solver (T := R) -> Prop :=
| lib_cholmod : library_linear cholmod_solve
| lib_cg tol : library_linear (cg_solve tol).
(* solve() of the three convergence-controlled solvers *)
Inductive library_solver (E : env R) : (nat -> graph R -> assign R -> option (result (assign R))) -> Prop :=
| any_gn cfg lin : library_linear lin -> library_solver E (fun fuel => gn_solve E fuel cfg lin)
| any_lm cfg lin : 0 < lambda_initial cfg -> 0 < lambda_factor cfg -> 0 < lambda_min cfg -> library_linear lin ->
    library_solver E (fun fuel => lm_solve E fuel cfg lin)
| any_dl cfg lin : library_linear lin -> library_solver E (fun fuel => dl_solve E fuel cfg lin).

(* no factor mentions a variable twice (C53) *)
Definition no_repeats (fs : list (factor R)) : Prop := forall f, In f fs -> NoDup (f_vars f).

(* the precision matrix W^T W of a Gaussian noise model (inside any Huber wrappers) *)
Fixpoint precision (n : noise R) (i j : nat) : R :=
  match n with
  | Gaussian W => let k := last (a_shape W) 0%nat in
      sumn k (fun l => ent (chunks k k (a_data W)) l i * ent (chunks k k (a_data W)) l j)
  | DiagGaussian d => if Nat.eqb i j then nth i (a_data d) 0 * nth i (a_data d) 0 else 0
  | Huber w _ => precision w i j
  end.
(* noise models of dimension k with the same precision and the same Huber thresholds *)
Inductive same_weight (k : nat) : noise R -> noise R -> Prop :=
| sw_linear n n' : linear_noise n -> linear_noise n' -> noise_dim n = k -> noise_dim n' = k ->
    (forall i j, (i < k)%nat -> (j < k)%nat -> precision n i j = precision n' i j) ->
    same_weight k n n'
| sw_huber n n' delta : same_weight k n n' -> same_weight k (Huber n delta) (Huber n' delta).

(* the same function of the same variables *)
Definition same_function (E : env R) (f f' : factor R) : Prop :=
  f_vars f' = f_vars f /\ residual_dim f' = residual_dim f /\
  forall val, residual_at E val f' = residual_at E val f /\ jacobians_at E val f' = jacobians_at E val f.
(* ... with another representation of the noise *)
Definition same_factor (E : env R) (f f' : factor R) : Prop :=
  same_function E f f' /\ same_weight (residual_dim f) (f_noise f) (f_noise f').
(* the precision of f is the sum of those of f1 and f2 *)
Definition split_factor (E : env R) (f f1 f2 : factor R) : Prop :=
  same_function E f f1 /\ same_function E f f2 /\
  linear_noise (f_noise f) /\ linear_noise (f_noise f1) /\ linear_noise (f_noise f2) /\
  forall i j, (i < residual_dim f)%nat -> (j < residual_dim f)%nat ->
    precision (f_noise f) i j = precision (f_noise f1) i j + precision (f_noise f2) i j.
