(* Specification vocabulary: how far apart two sets of poses are in the stored parameters, and
   the poses at which a consistent graph fits exactly. *)
From Coq Require Import List Arith Reals.
From Verif Require Import Num NumR Py Arr MLayout MAssign MNoise MSparse MFactor MGraph MLie MPose SpecLie SpecGraph SpecPose SpecZero SpecTwin SpecBook SpecLoose.
Import ListNotations.
Local Open Scope R_scope.

(* no stored parameter of a pose of the graph differs by more than d *)
Definition within (fs : list (factor R)) (d : R) (val val' : var -> pytree R) : Prop :=
  forall v, In v (mentioned fs) -> forall i, Rabs (nth i (params (val' v)) 0 - nth i (params (val v)) 0) <= d.
