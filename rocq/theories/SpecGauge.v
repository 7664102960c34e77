(* Specification vocabulary: pose graphs without absolute measurements. *)
From Coq Require Import List Arith Reals.
From Verif Require Import Num NumR Py Arr MLayout MAssign MNoise MSparse MFactor MGraph MLie MPose SpecLie SpecGraph SpecPose SpecZero SpecFrame SpecTwin SpecBook.
Import ListNotations.
Local Open Scope R_scope.

(* a variable reached from the variable v0 along relative measurements *)
Inductive joined (fs : list (factor R)) (v0 : var) : var -> Prop :=
| joined_root : joined fs v0 v0
| joined_next va vb Tab n f : between_make va vb Tab n = Ok f -> In f fs -> joined fs v0 va -> joined fs v0 vb
| joined_back va vb Tab n f : between_make va vb Tab n = Ok f -> In f fs -> joined fs v0 vb -> joined fs v0 va.

Section Spec.
Variable groups : vty -> lie_ops R (list R).
Variable fs : list (factor R).

(* val' is val after one rigid motion of the whole world *)
Definition same_shape_as (val val' : var -> pytree R) : Prop :=
  exists frame, unit_frame groups frame /\ forall v, In v (mentioned fs) -> val' v = move groups frame (v_ty v) (val v).
(* up to such a motion, val is z displaced by e *)
Definition off_by (z : var -> pytree R) (val : var -> pytree R) (e : var -> list R) : Prop :=
  tangent (pose_env groups) fs e /\ exists w, SpecBook.moved (pose_env groups) fs z e w /\ same_shape_as w val.
(* val' is as close to a common motion of z as k contractions by q allow, starting from a displacement e *)
Definition regained (z : var -> pytree R) (q C : R) (k : nat) (val : var -> pytree R) (e : var -> list R) (val' : var -> pytree R) : Prop :=
  cost_at (pose_env groups) fs val' <= q ^ k * q ^ k * cost_at (pose_env groups) fs val /\
  exists e', off_by z val' e' /\ size fs e' <= C * q ^ k * size fs e.
End Spec.
