(* Specification vocabulary: the angle by which a tangent vector of SO(3) or SE(3) rotates. *)
From Coq Require Import List Arith Reals.
From Verif Require Import Num NumR MLie SpecPose.
Import ListNotations.
Local Open Scope R_scope.

(* the last three components of the tangent vector are the rotation vector *)
Definition rotation_angle (raw : lie_ops R (list R)) (d : list R) : R := len3 (skipn (lg_dim raw - 3) d).
(* a parameter vector of the right size with a unit quaternion *)
Definition pose3 (raw : lie_ops R (list R)) (p : list R) : Prop := length p = length (lg_one raw) /\ norm4 p = 1.
