(* Specification vocabulary: averaging rotations. *)
From Coq Require Import List Arith Reals ZArith.
From Verif Require Import Num NumR Py Arr MLayout MAssign MNoise MSparse MFactor MGraph MLinear MSolver MLie MPose SpecNoise SpecDeriv SpecLie SpecGraph SpecPose SpecZero SpecTwin SpecAssign SpecSolver SpecInv SpecBook SpecSettle.
Import ListNotations.
Local Open Scope R_scope.

(* a prior on a rotation (SO(2) or SO(3)), or a between factor on two planar rotations; the
   noise multiplies the residual by s *)
Definition averages (groups : vty -> lie_ops R (list R)) (f : factor R) (s : R) : Prop :=
  pose_factor groups f /\ unit_measurement groups f /\ scales (f_noise f) (residual_dim f) s /\
  forall v, In v (f_vars f) -> groups (v_ty v) = raw_so2 \/ (groups (v_ty v) = raw_so3 /\ f_vars f = [v]).
Definition averaging (groups : vty -> lie_ops R (list R)) (fs : list (factor R)) : Prop :=
  fs <> [] /\ forall f, In f fs -> exists s, averages groups f s.
(* normalised values of the variables *)
Definition rotations (groups : vty -> lie_ops R (list R)) (fs : list (factor R)) (val : var -> pytree R) : Prop :=
  forall v, In v (mentioned fs) -> exists p, val v = group_value (v_ty v) p /\ legal_pose (groups (v_ty v)) p.

(* a cost too low for any residual to reach half a turn *)
Definition short_of_half_turns (groups : vty -> lie_ops R (list R)) (fs : list (factor R)) (c : R) : Prop :=
  forall f s, In f fs -> averages groups f s -> c < s * PI * (s * PI).

(* over values that satisfy P, wherever the solvers may move, the cost stays below its model *)
Definition majorised (E : env R) (fs : list (factor R)) (P : (var -> pytree R) -> Prop) : Prop :=
  forall val xi val', P val -> tangent E fs xi -> moved E fs val xi val' -> P val' /\ cost_at E fs val' <= model E fs val val xi.

(* each of the four nonlinear solvers, started at val, lowers the cost; it returns val' with P *)
Definition lowered (E : env R) (fs : list (factor R)) (g : graph R) (P : (var -> pytree R) -> Prop) (val : var -> pytree R) (a : assign R) : Prop :=
  exists val' r', assigns E fs a val' /\ P val' /\ compute_cost E g a = Ok (cost_at E fs val', r') /\
    cost_at E fs val' <= cost_at E fs val /\ (~ balanced E fs val -> cost_at E fs val' < cost_at E fs val).
Definition descends (E : env R) (fs : list (factor R)) (g : graph R) (P : (var -> pytree R) -> Prop) (init : assign R) (val : var -> pytree R) : Prop := forall fuel,
  (forall cfg, (iteration_cap (max_iterations cfg) <= fuel)%nat -> exists a', gn_solve E fuel cfg cholmod_solve g init = Some (Ok a') /\ lowered E fs g P val a') /\
  (forall unroll it, same_layout (as_layout init) (g_layout g) -> (1 <= it)%Z -> (Z.to_nat it <= fuel)%nat ->
     exists a', fixed_solve E fuel unroll it cholmod_solve g init = Some (Ok a') /\ lowered E fs g P val a') /\
  (forall cfg, (iteration_cap (max_iterations (lm_term cfg)) <= fuel)%nat -> 0 < lambda_initial cfg -> 0 < lambda_factor cfg -> 0 < lambda_min cfg -> lm_quality_min cfg <= 1 ->
     exists a', lm_solve E fuel cfg cholmod_solve g init = Some (Ok a') /\ lowered E fs g P val a') /\
  (forall cfg, (iteration_cap (max_iterations (dl_term cfg)) <= fuel)%nat -> 0 < radius_initial cfg -> dl_quality_min cfg <= 1 ->
     exists a', dl_solve E fuel cfg cholmod_solve g init = Some (Ok a') /\ lowered E fs g P val a').
