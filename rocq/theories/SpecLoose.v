(* Specification vocabulary: motions of a pose graph that no measurement can see. *)
From Coq Require Import List Arith Reals.
From Verif Require Import Num NumR Py Arr MLayout MAssign MNoise MSparse MFactor MGraph MLie MPose SpecLie SpecGraph SpecPose SpecZero SpecTwin SpecBook.
Import ListNotations.
Local Open Scope R_scope.

Section Spec.
Variable groups : vty -> lie_ops R (list R).
Variable fs : list (factor R).

(* one transform per pose: two poses related by a measurement move together, a pose with a
   prior stays where it is *)
Record unseen_motion (fr : var -> list R) : Prop := {
  um_unit : forall v, In v (mentioned fs) -> unit_pose (groups (v_ty v)) (fr v);
  um_prior : forall v mu n, In (prior_make v mu n) fs -> fr v = lg_one (groups (v_ty v));
  um_between : forall va vb Tab n f, between_make va vb Tab n = Ok f -> In f fs -> fr va = fr vb }.
(* val' is val after such a motion *)
Definition alike (val val' : var -> pytree R) : Prop :=
  exists fr, unseen_motion fr /\ forall v, In v (mentioned fs) -> val' v = group_value (v_ty v) (lg_mul (groups (v_ty v)) (fr v) (params (val v))).
(* up to such a motion, val is z displaced by e *)
Definition apart (z : var -> pytree R) (val : var -> pytree R) (e : var -> list R) : Prop :=
  tangent (pose_env groups) fs e /\ exists w, SpecBook.moved (pose_env groups) fs z e w /\ alike w val.
(* val' fits the measurements and is as close to a moved z as k contractions by q allow,
   starting from a displacement e *)
Definition restored (z : var -> pytree R) (q C : R) (k : nat) (val : var -> pytree R) (e : var -> list R) (val' : var -> pytree R) : Prop :=
  cost_at (pose_env groups) fs val' <= q ^ k * q ^ k * cost_at (pose_env groups) fs val /\
  exists e', apart z val' e' /\ size fs e' <= C * q ^ k * size fs e.
End Spec.
