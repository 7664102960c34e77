(* Specification vocabulary: one SE(2) pose observed m times at the origin and once far away
   (tests/test_huber.py). *)
From Coq Require Import List Arith Bool ZArith Reals Permutation.
From Verif Require Import Num NumR Py Arr MLayout MAssign MNoise MSparse MFactor MGraph MLinear MSolver MLie MPose SpecLie SpecPose.
Import ListNotations.
Local Open Scope R_scope.

(* DiagonalGaussian.make_from_covariance(ones(3)), alone and inside HuberWrapper *)
Definition unit_noise : noise R := diag_from_covariance [1; 1; 1].
Definition huber_noise (delta : R) : noise R := Huber unit_noise (mkArr [] [delta]).
(* SE2.from_xy_theta(x, y, 0) *)
Definition at_xy (t : vty) (x y : R) : pytree R := group_value t [1; 0; x; y].
Definition seen_at (v : var) (x y : R) (n : noise R) : factor R := prior_make v (at_xy (v_ty v) x y) n.
(* m observations at the origin and f, in any order *)
Definition observations (v : var) (m : nat) (f : factor R) (fs : list (factor R)) : Prop :=
  Permutation fs (f :: repeat (seen_at v 0 0 unit_noise) m).
(* norm(value.log()) *)
Definition pose_error (x : pytree R) : R := vnorm (se2_log (params x)).
(* 1e-5, the damping of GaussNewtonSolver *)
Definition damping : R := 1 / 100000.
(* share of the outlier after k iterations without Huber loss *)
Definition share_after (m k : nat) : R := (1 - (damping / (INR m + 1 + damping)) ^ k) / (INR m + 1).
(* the distance at which the Huber iteration comes to rest *)
Definition rest_point (m : nat) (delta D X : R) : Prop := 0 < X /\ delta <= D - X /\ (INR m * X) ^ 4 = delta ^ 3 * (D - X).
