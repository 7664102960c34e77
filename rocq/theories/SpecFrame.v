(* Specification vocabulary for a change of world frame in a pose graph. *)
From Coq Require Import List Arith Reals.
From Verif Require Import Num NumR Py Arr MLayout MAssign MNoise MSparse MFactor MLie MPose SpecLie SpecGraph SpecPose.
Import ListNotations.
Local Open Scope R_scope.

Section Frame.
Variable groups : vty -> lie_ops R (list R).
(* the old world frame seen from the new one, one group element for each pose type *)
Variable frame : vty -> list R.

(* its rotation part is normalised *)
Definition unit_frame : Prop := forall t, (planar (groups t) -> norm2 (frame t) = 1) /\ (spatial (groups t) -> norm4 (frame t) = 1).

(* a pose in the new frame *)
Definition move (t : vty) (x : pytree R) : pytree R := group_value t (lg_mul (groups t) (frame t) (params x)).
(* a factor in the new frame: priors are about absolute poses, relative measurements stay *)
Definition move_factor (f : factor R) : factor R :=
  match f_cls f, f_vars f, f_params f with
  | 0%nat, [v], [mu] => prior_make v (move (v_ty v) mu) (f_noise f)
  | _, _, _ => f
  end.
Definition moved (v : var) (x x' : pytree R) : Prop := x' = move (v_ty v) x.
End Frame.
