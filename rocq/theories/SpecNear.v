(* Specification vocabulary: the minimiser nearest to the starting values. *)
From Coq Require Import List Arith Bool Reals.
From Verif Require Import Num NumR Py Arr MLayout MAssign MFactor MGraph SpecTree SpecGraph SpecDeriv SpecLin SpecTwin SpecBook.
Import ListNotations.
Local Open Scope R_scope.

(* z, holding valz, has minimum cost, and no other choice of values of minimum cost is closer
   to val0 *)
Definition nearest_minimum (E : env R) (fs : list (factor R)) (g : graph R) (val0 : var -> pytree R) (z : assign R) (valz : var -> pytree R) (cz : R) (rz : list R) : Prop :=
  is_minimum E fs g z valz cz rz /\
  forall b valb cb rb, is_minimum E fs g b valb cb rb -> distance2 fs val0 valz <= distance2 fs val0 valb.

(* the factor by which one step of a solver whose damping is beta shrinks the error, when the
   squared residual change is at least mu times the squared change of the values *)
Definition shrink_rate (mu beta : R) : R := beta / (mu + beta).

(* a direction that no factor measures: the Jacobians of every factor send it to zero, at the
   values val, or at all legal values *)
Definition unseen_at (E : env R) (fs : list (factor R)) (val : var -> pytree R) (nu : var -> list R) : Prop :=
  tangent E fs nu /\
  forall f, In f fs -> pushed (residual_dim f) (f_vars f) (jacobians_at E val f) nu = vzero (residual_dim f).
Definition unseen (E : env R) (fs : list (factor R)) (nu : var -> list R) : Prop :=
  forall val, (forall v, In v (mentioned fs) -> value_ok (e_cls E (v_ty v)) (val v)) -> unseen_at E fs val nu.
(* the component of the values in the direction nu *)
Definition component (fs : list (factor R)) (nu : var -> list R) (val : var -> pytree R) : R :=
  vsum (map (fun v => vdot (nu v) (ravel (val v))) (mentioned fs)).
