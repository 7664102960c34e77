(* Specification vocabulary: SE(2) pose graphs along a straight line (tests/test_pose_graphs.py,
   scripts/pose_graph_simple.py). *)
From Coq Require Import List Arith Bool ZArith Reals.
From Verif Require Import Num NumR Py Arr MLayout MAssign MNoise MSparse MFactor MGraph MLinear MSolver MLie MPose SpecLie SpecPose SpecGraph SpecOutlier.
Import ListNotations.
Local Open Scope R_scope.

(* measurements along the x axis, with their diagonal square-root precisions *)
Inductive sight :=
| Seen (v : var) (mu : R) (w wy wt : R)                (* a prior at (mu, 0, 0) *)
| Apart (va vb : var) (d : R) (w wy wt : R).           (* a between factor with (d, 0, 0) *)
Definition diag3 (w wy wt : R) : noise R := DiagGaussian (mkArr [3%nat] [w; wy; wt]).
Definition sight_factor (o : sight) (f : factor R) : Prop :=
  match o with
  | Seen v mu w wy wt => f = prior_make v (at_xy (v_ty v) mu 0) (diag3 w wy wt)
  | Apart va vb d w wy wt => between_make va vb (at_xy (v_ty va) d 0) (diag3 w wy wt) = Ok f
  end.
(* the variables are SE2Variables *)
Definition se2_sight (groups : vty -> lie_ops R (list R)) (o : sight) : Prop :=
  match o with
  | Seen v _ _ _ _ => groups (v_ty v) = raw_se2
  | Apart va vb _ _ _ _ => groups (v_ty va) = raw_se2 /\ v_ty vb = v_ty va
  end.

(* the scalar least-squares problem of the x coordinates *)
Definition sight_error (x : var -> R) (o : sight) : R :=
  match o with
  | Seen v mu w _ _ => w * (mu - x v)
  | Apart va vb d w _ _ => w * (d - (x vb - x va))
  end.
Definition line_cost (os : list sight) (x : var -> R) : R := vsum (map (fun o => sight_error x o * sight_error x o) os).
Definition dist2 (vs : list var) (x z : var -> R) : R := vsum (map (fun v => (x v - z v) * (x v - z v)) vs).
(* the poses (x v, 0, 0) *)
Definition along_x (x : var -> R) (v : var) : pytree R := at_xy (v_ty v) (x v) 0.
