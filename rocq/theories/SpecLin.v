(* Specification vocabulary for linear least-squares problems. *)
From Coq Require Import List Arith Bool Reals.
From Verif Require Import Num NumR Py Arr MLayout MAssign MNoise MFactor MGraph SpecLayout SpecTree SpecAssign SpecGraph SpecDeriv.
Import ListNotations.
Local Open Scope R_scope.

(* legal values for the variables of one factor *)
Definition legal_for (E : env R) (f : factor R) (val : var -> pytree R) : Prop :=
  forall v, In v (f_vars f) -> value_ok (e_cls E (v_ty v)) (val v).

(* sum over the variables of (Jacobian) times (difference of the scalars) *)
Definition jacobian_times_change (rd : nat) (vs : list var) (Js : list (list (list R))) (val val' : var -> pytree R) : list R :=
  fold_right vadd (vzero rd) (zipw (fun v J => mvec J (vsub (ravel (val' v)) (ravel (val v)))) vs Js).

(* variables that are plain arrays, Gaussian noise, residuals affine in the values *)
Record linear_problem (E : env R) (fs : list (factor R)) : Prop := mkLinear {
  lp_plain : forall v, In v (mentioned fs) -> plain_class (e_cls E (v_ty v));
  lp_noise : forall f, In f fs -> linear_noise (f_noise f);
  lp_const : forall f val val', In f fs -> legal_for E f val -> legal_for E f val' ->
    jacobians_at E val' f = jacobians_at E val f;
  lp_affine : forall f val val', In f fs -> legal_for E f val -> legal_for E f val' ->
    residual_at E val' f =
    vadd (residual_at E val f) (jacobian_times_change (residual_dim f) (f_vars f) (jacobians_at E val f) val val') }.

(* squared Euclidean distance between two choices of values *)
Definition distance2 (fs : list (factor R)) (val val' : var -> pytree R) : R :=
  vsum (map (fun v => sumsq (vsub (ravel (val' v)) (ravel (val v)))) (mentioned fs)).

(* z, holding valz, has a cost no larger than any other choice of values *)
Definition is_minimum (E : env R) (fs : list (factor R)) (g : graph R) (z : assign R) (valz : var -> pytree R) (cz : R) (rz : list R) : Prop :=
  assigns E fs z valz /\ compute_cost E g z = Ok (cz, rz) /\
  forall b valb cb rb, assigns E fs b valb -> compute_cost E g b = Ok (cb, rb) -> cz <= cb.
