(* Specification vocabulary: the pull of one more factor on a Gauss-Newton iteration. *)
From Coq Require Import List Arith ZArith Reals.
From Verif Require Import Num NumR Py Arr MLayout MAssign MNoise MSparse MFactor MGraph MLinear MSolver SpecLayout SpecTree SpecAssign SpecGraph SpecNoise SpecDeriv SpecTwin SpecBook.
Import ListNotations.
Local Open Scope R_scope.

(* xi + t eta, and xi' - xi *)
Definition stepped (xi : var -> list R) (t : R) (eta : var -> list R) : var -> list R := fun v => vadd (xi v) (vscale t (eta v)).
Definition gap (xi xi' : var -> list R) : var -> list R := fun v => vsub (xi' v) (xi v).

(* the linearised cost of fs at val curves by at least m in every direction *)
Definition stiff (E : env R) (fs : list (factor R)) (val : var -> pytree R) (m : R) : Prop :=
  forall xi eta, tangent E fs xi -> tangent E fs eta ->
    2 * m * inner fs eta eta <= model E fs val val (stepped xi 1 eta) + model E fs val val (stepped xi (-1) eta) - 2 * model E fs val val xi.

(* the Jacobian of f, whitened by w, has squared norm at most G on the tangent space of fs *)
Definition reach (E : env R) (fs : list (factor R)) (f : factor R) (w : noise R) (val : var -> pytree R) (G : R) : Prop :=
  forall eta, tangent E fs eta ->
    exists u, whiten_residual w (pushed (residual_dim f) (f_vars f) (jacobians_at E val f) eta) = Ok u /\ sumsq u <= G * inner fs eta eta.

(* noise model, the Gaussian in it, length n of the residual whitened by the Gaussian, size of
   the pull, and share of the Gaussian information that is left *)
Inductive pulls : noise R -> noise R -> R -> R -> R -> Prop :=
| pulls_plain w n : linear_noise w -> pulls w w n n 1
| pulls_inlier w delta n : linear_noise w -> 0 < delta -> n < delta -> pulls (Huber w (scal delta)) w n n 1
| pulls_outlier w delta n : linear_noise w -> 0 < delta -> delta <= n ->
    pulls (Huber w (scal delta)) w n (delta * sqrt (sqrt (n / delta))) (sqrt (delta / n)).
