(* Specification vocabulary: measurements that hold exactly in a pose graph. *)
From Coq Require Import List Arith Reals.
From Verif Require Import Num NumR Py Arr MLayout MAssign MNoise MSparse MFactor MLie MPose SpecLie SpecGraph SpecPose.
Import ListNotations.
Local Open Scope R_scope.

(* the rotation parameters are normalised *)
Definition unit_pose (raw : lie_ops R (list R)) (p : list R) : Prop :=
  (planar raw -> norm2 p = 1) /\ (spatial raw -> norm4 p = 1).
(* two parameter vectors of one pose: equal, or equal up to the sign of the quaternion *)
Definition same_pose (raw : lie_ops R (list R)) (p q : list R) : Prop :=
  p = q \/ (spatial raw /\ firstn 4 p = map Ropp (firstn 4 q) /\ skipn 4 p = skipn 4 q).

(* a noise model under which only the zero residual costs nothing *)
Fixpoint informative (n : noise R) : Prop :=
  match n with
  | Gaussian W => forall x k, a_shape W = [k; k] -> length x = k -> mvec (chunks k k (a_data W)) x = vzero k -> x = vzero k
  | DiagGaussian d => Forall (fun s => s <> 0) (a_data d)
  | Huber w delta => informative w /\ exists d, a_data delta = [d] /\ 0 < d
  end.

Section Graph.
Variable groups : vty -> lie_ops R (list R).
(* the measurement of f holds for the poses val: the prior mean is the pose itself; the
   relative pose leads from the first pose to the second *)
Definition measured (val : var -> pytree R) (f : factor R) : Prop :=
  match f_cls f, f_vars f, f_params f with
  | 0%nat, [v], [mu] => same_pose (groups (v_ty v)) (params (val v)) (params mu)
  | 1%nat, [va; vb], [Tab] =>
      same_pose (groups (v_ty va)) (lg_mul (groups (v_ty va)) (params (val va)) (params Tab)) (params (val vb))
  | _, _, _ => False
  end.
(* what the factor was told to expect is a normalised pose *)
Definition unit_measurement (f : factor R) : Prop :=
  forall v x, In v (f_vars f) -> In x (f_params f) -> unit_pose (groups (v_ty v)) (params x).
End Graph.
