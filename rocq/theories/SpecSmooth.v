(* Specification vocabulary: problems written as programs with default Jacobians, and exact fits. *)
From Coq Require Import List Arith Bool Reals.
From Verif Require Import Num NumR Py Arr MLayout MAssign MNoise MSparse MFactor MGraph MAuto MDual SpecTree SpecAssign SpecGraph SpecAuto SpecDual.
Import ListNotations.
Local Open Scope R_scope.

(* the scalars a residual program reads: those of its variables, and the factor's own fields *)
Definition inputs (val : var -> pytree R) (f : factor R) (k : nat) : R := nth k (flat (map val (f_vars f))) 0.
Definition fields (f : factor R) (k : nat) : R := nth k (flat (f_params f)) 0.

(* every Huber threshold is positive; a Gaussian has none *)
Fixpoint positive_thresholds (n : noise R) : Prop :=
  match n with
  | Huber w delta => positive_thresholds w /\ exists d, a_data delta = [d] /\ 0 < d
  | _ => True
  end.

(* factor classes are programs, variables plain arrays; nothing is overridden *)
Definition plain_programs (C : cenv (T := R)) (prog : nat -> list expr) : env R :=
  prog_env real_funs C prog (fun t => add_prog (param_dim (C t))).
Record program_problem (C : cenv (T := R)) (prog : nat -> list expr) (fs : list (factor R)) : Prop := mkProgramProblem {
  pp_classes : classes_ok C;
  pp_some : fs <> [];
  pp_factors : forall f, In f fs -> factor_ok f /\ length (prog (f_cls f)) = residual_dim f /\ (0 < residual_dim f)%nat /\ f_vars f <> [] /\ positive_thresholds (f_noise f);
  pp_plain : forall v, In v (mentioned fs) -> plain_class (C (v_ty v)) /\ (0 < param_dim (C (v_ty v)))%nat }.

(* every program of every factor is differentiable at the values and evaluates to zero *)
Definition exact_fit (prog : nat -> list expr) (fs : list (factor R)) (val : var -> pytree R) : Prop :=
  forall f e, In f fs -> In e (prog (f_cls f)) -> smooth (inputs val f) (fields f) e /\ denote (inputs val f) (fields f) e = 0.

(* no direction but zero leaves all residuals of z unchanged to first order *)
Definition determined_at (E : env R) (g : graph R) (z : assign R) : Prop :=
  forall c r A, compute_cost E g z = Ok (c, r) -> compute_whitened_residual_jacobian E g z r = Ok A ->
  forall x Ax, matmul A x = Ok Ax -> sumsq Ax = 0 -> sumsq x = 0.
