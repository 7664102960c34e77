(* Theorems C44 and C45 for the spatial groups SO(3) and SE(3). *)
From Coq Require Import List Arith Bool ZArith Reals.
From Verif Require Import Num NumR Py Arr MLayout MAssign MNoise MSparse MFactor MGraph MLie MPose SpecNoise SpecLayout SpecTree SpecAssign SpecLie SpecGraph SpecSparse SpecDeriv SpecPose SpecZero SpecSpatial.
From Verif Require Import PExInv PExSpatial.
Import ListNotations.
Local Open Scope R_scope.

Theorem C44_spatial_zero : forall raw, spatial raw -> forall mu s a b, pose3 raw mu -> pose3 raw s -> pose3 raw a -> pose3 raw b ->
  (prior_residual raw mu a = vzero (lg_dim raw) <-> same_pose raw a mu) /\
  (between_residual raw s a b = vzero (lg_dim raw) <-> same_pose raw (lg_mul raw a s) b) /\
  (forall g, pose3 raw g -> between_residual raw s (lg_mul raw g a) (lg_mul raw g b) = between_residual raw s a b).
Proof. exact spatial_zero. Qed.
Print Assumptions C44_spatial_zero.

Theorem C44_spatial_full_step : forall raw, spatial raw -> forall mu s a b, pose3 raw mu -> pose3 raw s -> pose3 raw a -> pose3 raw b ->
  same_pose raw (lie_retract raw a (prior_residual raw mu a)) mu /\
  same_pose raw (lie_retract raw b (between_residual raw s a b)) (lg_mul raw a s).
Proof. exact spatial_full_step. Qed.
Print Assumptions C44_spatial_full_step.

Theorem C44_quaternion_sign_refuted : exists p q, pose3 raw_so3 p /\ pose3 raw_so3 q /\ same_pose raw_so3 p q /\
  prior_residual raw_so3 p (lg_one raw_so3) <> prior_residual raw_so3 q (lg_one raw_so3).
Proof. exact quaternion_sign. Qed.
Print Assumptions C44_quaternion_sign_refuted.

Theorem C45_spatial_exact : forall raw, spatial raw -> forall mu x s a b d, pose3 raw mu -> pose3 raw x -> pose3 raw s -> pose3 raw a -> pose3 raw b ->
  same_pose raw x mu -> same_pose raw (lg_mul raw a s) b -> length d = lg_dim raw -> rotation_angle raw d < PI ->
  prior_residual raw mu (lie_retract raw x d) = mvec (nth 0 (prior_jacobians raw mu x) []) d /\
  between_residual raw s (lie_retract raw a d) b = mvec (nth 0 (between_jacobians raw s a b) []) d /\
  between_residual raw s a (lie_retract raw b d) = mvec (nth 1 (between_jacobians raw s a b) []) d.
Proof. exact spatial_exact. Qed.
Print Assumptions C45_spatial_exact.

Theorem C45_full_turn_refuted : exists d, length d = 3%nat /\ rotation_angle raw_so3 d = 2 * PI /\
  prior_residual raw_so3 (lg_one raw_so3) (lie_retract raw_so3 (lg_one raw_so3) d) = vzero 3 /\ mvec (nth 0 (prior_jacobians raw_so3 (lg_one raw_so3) (lg_one raw_so3)) []) d <> vzero 3.
Proof. exact full_turn. Qed.
Print Assumptions C45_full_turn_refuted.

Theorem C45_so3_rotated_refuted : exists mu x d, pose3 raw_so3 mu /\ pose3 raw_so3 x /\ length d = 3%nat /\
  ~ vderiv (fun t => prior_residual raw_so3 mu (lie_retract raw_so3 x (vscale t d))) (mvec (nth 0 (prior_jacobians raw_so3 mu x) []) d).
Proof. exact so3_rotated. Qed.
Print Assumptions C45_so3_rotated_refuted.

(* non-vacuity: poses of SE(3), one stored with the opposite quaternion, meeting the hypotheses of the theorems above *)
Example C44_spatial_example : pose3 raw_se3 [3 / 5; 0; 0; 4 / 5; 1; 2; 3] /\ pose3 raw_se3 [- (3 / 5); 0; 0; - (4 / 5); 1; 2; 3] /\
  same_pose raw_se3 [3 / 5; 0; 0; 4 / 5; 1; 2; 3] [- (3 / 5); 0; 0; - (4 / 5); 1; 2; 3] /\
  pose3 raw_se3 [0; 1; 0; 0; 0; 0; 1] /\ pose3 raw_se3 [0; 3 / 5; 4 / 5; 0; 1; 2; 4] /\
  same_pose raw_se3 (lg_mul raw_se3 [3 / 5; 0; 0; 4 / 5; 1; 2; 3] [0; 1; 0; 0; 0; 0; 1]) [0; 3 / 5; 4 / 5; 0; 1; 2; 4] /\
  rotation_angle raw_se3 [5; 5; 5; 3; 0; 0] < PI.
Proof. exact ex_spatial_case. Qed.

(* non-vacuity: a graph on SE(3) meeting the hypotheses of C45_consistent_graphs *)
Example C45_spatial_graph_example : (forall f, In f ex_spatial -> pose_factor ex_groups f /\ linear_noise (f_noise f) /\ unit_measurement ex_groups f /\ measured ex_groups ex_sval f) /\
  (forall v, In v (mentioned ex_spatial) -> spatial (ex_groups (v_ty v))) /\
  wf_assign (lie_class ex_groups) [sa; sb] false ex_sstart /\ (forall t, of_type t [sa; sb] = of_type t (mentioned ex_spatial)) /\
  (forall v, In v [sa; sb] -> get_value (lie_class ex_groups) ex_sstart v = Ok (ex_sval v) /\ unit_pose (ex_groups (v_ty v)) (params (ex_sval v))) /\
  total residual_dim ex_spatial = 12%nat /\ exists g, graph_make (pose_env ex_groups) ex_spatial = Ok g /\ l_dim (g_local_layout g) = 12%nat.
Proof. exact ex_spatial_graph. Qed.
