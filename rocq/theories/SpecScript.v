(* Specification vocabulary for the g2o script: jaxlie's constructors on exact reals, and which
   poses a file constrains. *)
From Coq Require Import List Arith ZArith Reals.
From Verif Require Import Num NumR Py Arr MLayout MAssign MFactor MLie MPose SpecPose SpecNoise MScript.
From Verif Require MG2o.
Import ListNotations.
Local Open Scope R_scope.

Definition script_groups : vty -> lie_ops R (list R) := fun t => match t with O => raw_se2 | _ => raw_se3 end.
Notation script_env := (pose_env script_groups).
(* jaxlie.SE2.from_xy_theta; jaxlie.SE3(wxyz_xyz); SE3.from_rotation_and_translation of
   SO3.from_quaternion_xyzw *)
Definition se2_of (x y t : R) : list R := [cos t; sin t; x; y].
Definition se3_of (l : list R) : list R := l.
Definition se3_of_parts (q t : list R) : list R := [q.[3]; q.[0]; q.[1]; q.[2]] ++ t.

Definition ends {T P} (f : MG2o.gfactor (T := T) (P := P)) : list MG2o.pvar :=
  match f with MG2o.GBetween a b _ _ => [a; b] | MG2o.GPrior v _ _ => [v] end.
(* every pose is named by some factor *)
Definition all_touched {T P} (fs : list (MG2o.gfactor (T := T) (P := P))) (ps : list (MG2o.pvar * P)) : Prop :=
  forall v p, In (v, p) ps -> exists f, In f fs /\ In v (ends f).

(* every pose has a value of its class; rotations of SE2 poses are exactly unit, quaternions
   keep the norm they have in the file *)
Definition solved_poses (ps : list (MG2o.pvar * list R)) (a : assign R) : Prop :=
  forall v p, In (v, p) ps ->
    exists q, get_value (e_cls script_env) a (pose_var v) = Ok (group_value (kind_ty (MG2o.pv_kind v)) q) /\ length q = length p /\
      (MG2o.pv_kind v = MG2o.SE2 -> norm2 q = 1) /\ (MG2o.pv_kind v = MG2o.SE3 -> norm4 q = norm4 p).

(* the objective the file stands for.  An edge from a to b compares the relative pose of its
   ends with its own; the last factor compares the first pose with the one in the file *)
Definition edge_error (pose : MG2o.pvar -> list R) (f : MG2o.gfactor (T := R) (P := list R)) : list R :=
  match f with
  | MG2o.GBetween a b t w =>
      let G := script_groups (kind_ty (MG2o.pv_kind a)) in
      mvec w (lg_log G (lg_mul G (lg_inv G (lg_mul G (lg_inv G (pose a)) (pose b))) t))
  | MG2o.GPrior v mu d =>
      let G := script_groups (kind_ty (MG2o.pv_kind v)) in
      vmul d (lg_log G (lg_mul G (lg_inv G (pose v)) mu))
  end.
Definition edge_cost (delta : option R) (pose : MG2o.pvar -> list R) (f : MG2o.gfactor (T := R) (P := list R)) : R :=
  match delta with
  | None => sumsq (edge_error pose f)
  | Some d => huber_weighted d (vnorm (edge_error pose f))
  end.
