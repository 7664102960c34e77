(* Specification vocabulary: graphs of planar rotations (SO2Variable) with prior and between
   factors, described by angles. *)
From Coq Require Import List Arith Bool ZArith Reals.
From Verif Require Import Num NumR Py Arr MLayout MAssign MNoise MSparse MFactor MGraph MLinear MSolver MLie MPose SpecLie SpecPose SpecGraph SpecStraight.
Import ListNotations.
Local Open Scope R_scope.

(* the rotation by an angle, as SO2's parameters *)
Definition facing (t : vty) (x : R) : pytree R := group_value t [cos x; sin x].
Definition headings (x : var -> R) (v : var) : pytree R := facing (v_ty v) (x v).

(* measured angles, with their square-root precisions *)
Inductive bearing :=
| Heading (v : var) (mu w : R)                (* a prior *)
| Turn (va vb : var) (d w : R).               (* a between factor *)
Definition diag1 (w : R) : noise R := DiagGaussian (mkArr [1%nat] [w]).
Definition bearing_factor (o : bearing) (f : factor R) : Prop :=
  match o with
  | Heading v mu w => f = prior_make v (facing (v_ty v) mu) (diag1 w)
  | Turn va vb d w => between_make va vb (facing (v_ty va) d) (diag1 w) = Ok f
  end.
(* the variables are SO2Variables *)
Definition so2_bearing (groups : vty -> lie_ops R (list R)) (o : bearing) : Prop :=
  match o with
  | Heading v _ _ => groups (v_ty v) = raw_so2
  | Turn va vb _ _ => groups (v_ty va) = raw_so2 /\ v_ty vb = v_ty va
  end.
Definition weight (o : bearing) : R := match o with Heading _ _ w => w | Turn _ _ _ w => w end.

(* the difference between measured and actual angle, and its representative in (-pi, pi] *)
Definition offset (x : var -> R) (o : bearing) : R :=
  match o with
  | Heading v mu _ => mu - x v
  | Turn va vb d _ => d - (x vb - x va)
  end.
Definition wrap (t : R) : R := t + 2 * PI * IZR (Int_part ((PI - t) / (2 * PI))).
Definition turn_cost (os : list bearing) (x : var -> R) : R :=
  vsum (map (fun o => weight o * wrap (offset x o) * (weight o * wrap (offset x o))) os).

(* the scalar least-squares problem in which every measured angle is replaced by the one, among
   those that differ from it by whole turns, that is nearest at x *)
Definition unwound (x : var -> R) (o : bearing) : sight :=
  let k := wrap (offset x o) - offset x o in
  match o with
  | Heading v mu w => Seen v (mu + k) w 0 0
  | Turn va vb d w => Apart va vb (d + k) w 0 0
  end.
Definition flat_cost (os : list bearing) (x z : var -> R) : R := line_cost (map (unwound x) os) z.

(* x minimises its own flat problem: no angle wants to move *)
Definition settled (os : list bearing) (x : var -> R) : Prop := forall z, flat_cost os x x <= flat_cost os x z.
(* so low a cost that no error can reach half a turn *)
Definition tame (os : list bearing) (c : R) : Prop := forall o, In o os -> weight o = 0 \/ c < weight o * PI * (weight o * PI).

(* what k iterations with damping up to beta make of the angles x *)
Definition improved (E : env R) (fs : list (factor R)) (g : graph R) (os : list bearing) (x : var -> R) (beta : R) (k : nat) (a : assign R) : Prop :=
  exists x' r, assigns E fs a (headings x') /\ compute_cost E g a = Ok (turn_cost os x', r) /\
    turn_cost os x' <= turn_cost os x /\
    (~ settled os x -> turn_cost os x' < turn_cost os x) /\
    (settled os x -> forall v, In v (mentioned fs) -> x' v = x v) /\
    (tame os (turn_cost os x) -> turn_cost os x' = flat_cost os x x' /\
       forall z, turn_cost os x' <= flat_cost os x z + beta * dist2 (mentioned fs) z x / INR k).
