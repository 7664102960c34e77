(* Specification vocabulary: pose graphs whose measurements all hold at some poses, and nothing
   else nearby. *)
From Coq Require Import List Arith Reals.
From Verif Require Import Num NumR Py Arr MLayout MAssign MNoise MSparse MFactor MGraph MLie MPose SpecLie SpecGraph SpecPose SpecZero SpecTwin SpecBook SpecNear.
Import ListNotations.
Local Open Scope R_scope.

Section Spec.
Variable groups : vty -> lie_ops R (list R).
Variable fs : list (factor R).

(* pose factors of SO(2), SE(2), SO(3), SE(3) with informative noise (Huber allowed), between
   normalised poses z at which each measurement holds *)
Record solved_by (z : var -> pytree R) : Prop := {
  sb_factors : forall f, In f fs -> pose_factor groups f /\ informative (f_noise f) /\ unit_measurement groups f /\ measured groups z f;
  sb_groups : forall v, In v (mentioned fs) -> planar (groups (v_ty v)) \/ spatial (groups (v_ty v));
  sb_values : forall v, In v (mentioned fs) -> pose_value groups (v_ty v) (z v) /\ unit_pose (groups (v_ty v)) (params (z v)) }.

(* every direction changes some residual, to first order *)
Definition rigid (z : var -> pytree R) : Prop :=
  forall nu, unseen_at (pose_env groups) fs z nu -> forall v, In v (mentioned fs) -> nu v = vzero (lg_dim (groups (v_ty v))).

(* a variable with a prior, or joined by relative measurements to one with a prior *)
Inductive tied : var -> Prop :=
| tied_prior v mu n : In (prior_make v mu n) fs -> tied v
| tied_next va vb Tab n f : between_make va vb Tab n = Ok f -> In f fs -> tied va -> tied vb
| tied_back va vb Tab n f : between_make va vb Tab n = Ok f -> In f fs -> tied vb -> tied va.
End Spec.
