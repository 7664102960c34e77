(* Theorems C70: when a pose graph has zero cost; C45: its Jacobian there. *)
From Coq Require Import List Arith Bool ZArith Reals.
From Verif Require Import Num NumR Py Arr MLayout MAssign MNoise MSparse MFactor MGraph MLinear MSolver MLie MPose SpecLayout SpecTree SpecAssign SpecGraph SpecSparse SpecSolver SpecOrder SpecDeriv SpecLie SpecInv SpecPose SpecZero.
From Verif Require Import PExInv PJacZero PSpatial4 PExZero.
Import ListNotations.
Local Open Scope R_scope.

Theorem C70_zero_cost_iff_consistent :
  forall groups fs, (forall f, In f fs -> pose_factor groups f) ->
  (forall v, In v (mentioned fs) -> planar (groups (v_ty v)) \/ spatial (groups (v_ty v))) ->
  forall g a val, graph_make (pose_env groups) fs = Ok g ->
  (forall f, In f fs -> informative (f_noise f) /\ unit_measurement groups f) ->
  assigns (pose_env groups) fs a val -> (forall v, In v (mentioned fs) -> unit_pose (groups (v_ty v)) (params (val v))) ->
  exists c r, compute_cost (pose_env groups) g a = Ok (c, r) /\ 0 <= c /\ (c = 0 <-> forall f, In f fs -> measured groups val f).
Proof. exact zero_cost. Qed.
Print Assumptions C70_zero_cost_iff_consistent.

Theorem C70_solver_results :
  forall groups fs g lin step extra solve, (forall f, In f fs -> pose_factor groups f) ->
  (forall v, In v (mentioned fs) -> planar (groups (v_ty v)) \/ spatial (groups (v_ty v))) -> graph_make (pose_env groups) fs = Ok g ->
  (forall f, In f fs -> informative (f_noise f) /\ unit_measurement groups f) ->
  sized lin -> nonlinear_solver (pose_env groups) lin step extra solve ->
  forall init val fuel a' val', assigns (pose_env groups) fs init val -> (forall v, In v (mentioned fs) -> unit_pose (groups (v_ty v)) (params (val v))) ->
  solve fuel g init = Some (Ok a') -> assigns (pose_env groups) fs a' val' ->
  exists c r, compute_cost (pose_env groups) g a' = Ok (c, r) /\ (c = 0 <-> forall f, In f fs -> measured groups val' f).
Proof. exact zero_result. Qed.
Print Assumptions C70_solver_results.

Theorem C70_between_make :
  forall (T : Type) (va vb : var) (Tab : pytree T) (n : noise T),
  (forall cs, v_ty va = v_ty vb -> Tab = Node (v_ty va) cs -> between_make va vb Tab n = Ok (mkFactor 1 [va; vb] n [Tab])) /\
  (v_ty va <> v_ty vb \/ (forall cs, Tab <> Node (v_ty va) cs) -> between_make va vb Tab n = Err AssertionError).
Proof. exact @between_made. Qed.
Print Assumptions C70_between_make.

Theorem C70_parameters_equal_refuted :
  exists fs g a val v mu n,
  fs = [prior_make v mu n] /\ pose_factor ex_groups (prior_make v mu n) /\ spatial (ex_groups (v_ty v)) /\ informative n /\
  graph_make (pose_env ex_groups) fs = Ok g /\ assigns (pose_env ex_groups) fs a val /\
  norm4 (params (val v)) = 1 /\ norm4 (params mu) = 1 /\
  (exists r, compute_cost (pose_env ex_groups) g a = Ok (0, r)) /\ params (val v) <> params mu.
Proof. exact opposite_quaternion. Qed.
Print Assumptions C70_parameters_equal_refuted.

Theorem C70_unnormalised_refuted :
  exists fs g a val v mu n,
  fs = [prior_make v mu n] /\ pose_factor ex_groups (prior_make v mu n) /\ planar (ex_groups (v_ty v)) /\ informative n /\
  graph_make (pose_env ex_groups) fs = Ok g /\ assigns (pose_env ex_groups) fs a val /\ norm2 (params mu) = 1 /\
  (exists r, compute_cost (pose_env ex_groups) g a = Ok (0, r)) /\ ~ measured ex_groups val (prior_make v mu n).
Proof. exact needs_unit. Qed.
Print Assumptions C70_unnormalised_refuted.

Example C70_example : (forall f, In f ex_poses -> pose_factor ex_groups f /\ informative (f_noise f) /\ unit_measurement ex_groups f) /\
  (forall v, In v (mentioned ex_poses) -> planar (ex_groups (v_ty v)) \/ spatial (ex_groups (v_ty v))) /\
  assigns (pose_env ex_groups) ex_poses ex_solved ex_true /\
  (forall v, In v (mentioned ex_poses) -> unit_pose (ex_groups (v_ty v)) (params (ex_true v))) /\
  (forall f, In f ex_poses -> measured ex_groups ex_true f) /\
  exists g r, graph_make (pose_env ex_groups) ex_poses = Ok g /\ compute_cost (pose_env ex_groups) g ex_solved = Ok (0, r).
Proof. exact ex_consistent. Qed.

Theorem C45_consistent_graphs :
  forall groups fs, (forall f, In f fs -> pose_factor groups f) -> (forall v, In v (mentioned fs) -> planar (groups (v_ty v)) \/ spatial (groups (v_ty v))) ->
  forall g a vs val x r, graph_make (pose_env groups) fs = Ok g -> (forall f, In f fs -> linear_noise (f_noise f)) ->
  (forall f, In f fs -> unit_measurement groups f /\ measured groups val f) ->
  wf_assign (lie_class groups) vs false a -> (forall t, of_type t vs = of_type t (mentioned fs)) ->
  (forall v, In v vs -> get_value (lie_class groups) a v = Ok (val v) /\ unit_pose (groups (v_ty v)) (params (val v))) ->
  length r = total residual_dim fs -> length x = l_dim (g_local_layout g) ->
  exists A y rt, compute_whitened_residual_jacobian (pose_env groups) g a r = Ok A /\ matmul A x = Ok y /\
    (forall t, exists a', manifold_retract (lie_class groups) a (mkAssign (vscale t x) (g_local_layout g)) = Ok a' /\
       compute_whitened_residual_vector (pose_env groups) g a' = Ok (rt t)) /\
    vderiv rt y.
Proof. exact consistent_derivative. Qed.
Print Assumptions C45_consistent_graphs.

Example C45_consistent_example : (forall f, In f ex_poses -> linear_noise (f_noise f) /\ unit_measurement ex_groups f /\ measured ex_groups ex_true f) /\
  (forall v, In v (mentioned ex_poses) -> planar (ex_groups (v_ty v))) /\
  wf_assign (lie_class ex_groups) [pa; pb] false ex_solved /\ (forall t, of_type t [pa; pb] = of_type t (mentioned ex_poses)) /\
  (forall v, In v [pa; pb] -> get_value (lie_class ex_groups) ex_solved v = Ok (ex_true v) /\ unit_pose (ex_groups (v_ty v)) (params (ex_true v))) /\
  total residual_dim ex_poses = 6%nat /\ exists g, graph_make (pose_env ex_groups) ex_poses = Ok g /\ l_dim (g_local_layout g) = 6%nat.
Proof. exact ex_consistent_derivative. Qed.
