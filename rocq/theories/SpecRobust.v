(* Specification vocabulary: affine residuals under Gaussian or Huber noise. *)
From Coq Require Import List Arith Bool Reals.
From Verif Require Import Num NumR Py Arr MLayout MAssign MNoise MSparse MFactor MGraph MLinear MSolver SpecLayout SpecTree SpecAssign SpecGraph SpecDeriv SpecNoise SpecSparse SpecLin SpecLoss SpecCgLin SpecTrCg.
Import ListNotations.
Local Open Scope R_scope.

(* as linear_problem of SpecLin.v, but each factor may have one Huber wrapper around its noise *)
Record robust_problem (E : env R) (fs : list (factor R)) : Prop := mkRobust {
  rp_plain : forall v, In v (mentioned fs) -> plain_class (e_cls E (v_ty v));
  rp_noise : forall f, In f fs -> robust_noise (f_noise f);
  rp_const : forall f val val', In f fs -> legal_for E f val -> legal_for E f val' ->
    jacobians_at E val' f = jacobians_at E val f;
  rp_affine : forall f val val', In f fs -> legal_for E f val -> legal_for E f val' ->
    residual_at E val' f =
    vadd (residual_at E val f) (jacobian_times_change (residual_dim f) (f_vars f) (jacobians_at E val f) val val') }.

(* a linear solver, and the share q of the excess cost that one undamped step of it would remove on
   the same problem without the Huber wrappers; sigma and F bound the spectrum of that problem *)
Inductive solver_share (E : env R) (fs : list (factor R)) (g : graph R) (sigma F : R) : linear_solver (T := R) -> R -> Prop :=
| share_cholmod : solver_share E fs g sigma F cholmod_solve (sigma / (F + 1 / 100000))
| share_cg tol t : every_column E fs g -> (forall i, Rabs (tol i) <= t) -> t < 1 ->
    solver_share E fs g sigma F (cg_solve tol) ((1 - t) * (1 - t) * sigma / F).

(* no legal values have a smaller loss *)
Definition least_loss (E : env R) (fs : list (factor R)) (val : var -> pytree R) : Prop :=
  forall z valz, assigns E fs z valz -> total_loss E fs val <= total_loss E fs valz.
