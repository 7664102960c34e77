(* C88: pose graphs whose measurements contradict each other: where the solvers come to rest, and whether that is a minimum. *)
From Coq Require Import List Arith Bool Reals ZArith.
From Verif Require Import Num NumR Py Arr MLayout MAssign MNoise MSparse MFactor MGraph MLinear MSolver MLie MPose SpecLayout SpecTree SpecAssign SpecNoise SpecGraph SpecSparse SpecDeriv SpecLie SpecPose SpecZero SpecSpatial SpecTwin SpecInv SpecOrder SpecSolver SpecBook SpecSettle Ex ExG ExS PExInv PExZero PExSettle.
Import ListNotations.
Local Open Scope R_scope.

Theorem C88_rotation_gradient : forall groups fs g a vs val x,
  (forall f, In f fs -> pose_factor groups f /\ unit_measurement groups f /\ (exists s, scales (f_noise f) (residual_dim f) s) /\ vnorm (residual_at (pose_env groups) val f) < PI) ->
  (forall v, In v (mentioned fs) -> turning (groups (v_ty v))) -> graph_make (pose_env groups) fs = Ok g ->
  wf_assign (lie_class groups) vs false a -> (forall t, of_type t vs = of_type t (mentioned fs)) ->
  (forall v, In v vs -> get_value (lie_class groups) a v = Ok (val v) /\ unit_pose (groups (v_ty v)) (params (val v))) ->
  length x = l_dim (g_local_layout g) ->
  exists r A grad c, compute_whitened_residual_vector (pose_env groups) g a = Ok r /\ compute_whitened_residual_jacobian (pose_env groups) g a r = Ok A /\
    matmul (transpose A) r = Ok grad /\ length grad = length x /\
    (forall t, exists a' r', manifold_retract (lie_class groups) a (mkAssign (vscale t x) (g_local_layout g)) = Ok a' /\ compute_cost (pose_env groups) g a' = Ok (c t, r')) /\
    derivable_pt_lim c 0 (2 * vdot grad x).
Proof. exact settle_gradient. Qed.
Print Assumptions C88_rotation_gradient.

Theorem C88_step : forall E fs beta val xi, well_posed E fs -> 0 < beta -> (forall v, In v (mentioned fs) -> value_ok (e_cls E (v_ty v)) (val v)) -> damped_step E fs beta val val xi ->
  (agree fs xi (fun v => vzero (vldim (e_cls E) v)) <-> balanced E fs val).
Proof. exact settle_step. Qed.
Print Assumptions C88_step.

Theorem C88_rest : forall E fs g init val, well_posed E fs -> graph_make E fs = Ok g -> assigns E fs init val -> balanced E fs val ->
  (forall v, In v (mentioned fs) -> retract (e_cls E (v_ty v)) (val v) (vzero (vldim (e_cls E) v)) = Ok (val v)) -> stays E fs g init val.
Proof. exact settle_stays. Qed.
Print Assumptions C88_rest.

Theorem C88_pose_rest : forall groups fs g init val, (forall f, In f fs -> pose_factor groups f) -> (forall v, In v (mentioned fs) -> planar (groups (v_ty v)) \/ spatial (groups (v_ty v))) ->
  graph_make (pose_env groups) fs = Ok g -> assigns (pose_env groups) fs init val -> balanced (pose_env groups) fs val -> stays (pose_env groups) fs g init val.
Proof. exact settle_poses. Qed.
Print Assumptions C88_pose_rest.

Theorem C88_midpoint : forall groups v mu1 mu2 n0 n1 n2 s1 s2 k, planar (groups (v_ty v)) \/ spatial (groups (v_ty v)) ->
  legal_pose (groups (v_ty v)) mu1 -> legal_pose (groups (v_ty v)) mu2 -> linear_noise n0 -> noise_ok n0 -> noise_dim n0 = lg_dim (groups (v_ty v)) ->
  multiple n0 s1 n1 -> multiple n0 s2 n2 -> 0 < k < 1 -> s1 * s1 * k = s2 * s2 * (1 - k) ->
  forall g init val, graph_make (pose_env groups) (two_priors v mu1 n1 mu2 n2) = Ok g -> assigns (pose_env groups) (two_priors v mu1 n1 mu2 n2) init val ->
    val v = group_value (v_ty v) (on_the_way (groups (v_ty v)) k mu1 mu2) ->
    balanced (pose_env groups) (two_priors v mu1 n1 mu2 n2) val /\ stays (pose_env groups) (two_priors v mu1 n1 mu2 n2) g init val.
Proof. exact settle_midpoint. Qed.
Print Assumptions C88_midpoint.

Theorem C88_rotation_minimum : forall groups v mu1 mu2 n1 n2 s1 s2 k, turning (groups (v_ty v)) ->
  legal_pose (groups (v_ty v)) mu1 -> legal_pose (groups (v_ty v)) mu2 -> scales n1 (lg_dim (groups (v_ty v))) s1 -> scales n2 (lg_dim (groups (v_ty v))) s2 ->
  s1 <> 0 -> 0 < k < 1 -> s1 * s1 * k = s2 * s2 * (1 - k) ->
  forall g a val, graph_make (pose_env groups) (two_priors v mu1 n1 mu2 n2) = Ok g -> assigns (pose_env groups) (two_priors v mu1 n1 mu2 n2) a val ->
    val v = group_value (v_ty v) (on_the_way (groups (v_ty v)) k mu1 mu2) ->
    stays (pose_env groups) (two_priors v mu1 n1 mu2 n2) g a val /\
    forall b val' x, assigns (pose_env groups) (two_priors v mu1 n1 mu2 n2) b val' -> val' v = group_value (v_ty v) x -> legal_pose (groups (v_ty v)) x ->
      exists c c' r r', compute_cost (pose_env groups) g a = Ok (c, r) /\ compute_cost (pose_env groups) g b = Ok (c', r') /\ c <= c'.
Proof. exact settle_rotations. Qed.
Print Assumptions C88_rotation_minimum.

Theorem C88_cheaper : forall groups v mu1 mu2 n1 n2 s1 s2 k, moving (groups (v_ty v)) ->
  legal_pose (groups (v_ty v)) mu1 -> legal_pose (groups (v_ty v)) mu2 -> scales n1 (lg_dim (groups (v_ty v))) s1 -> scales n2 (lg_dim (groups (v_ty v))) s2 ->
  s1 <> 0 -> 0 < k < 1 -> s1 * s1 * k = s2 * s2 * (1 - k) ->
  (let d := lg_log (groups (v_ty v)) (lg_mul (groups (v_ty v)) (lg_inv (groups (v_ty v)) mu1) mu2) in cross (axis (groups (v_ty v)) d) (slide (groups (v_ty v)) d) <> [0; 0; 0]) ->
  forall g a val, graph_make (pose_env groups) (two_priors v mu1 n1 mu2 n2) = Ok g -> assigns (pose_env groups) (two_priors v mu1 n1 mu2 n2) a val ->
    val v = group_value (v_ty v) (on_the_way (groups (v_ty v)) k mu1 mu2) ->
    stays (pose_env groups) (two_priors v mu1 n1 mu2 n2) g a val /\
    exists x b c c' r r', legal_pose (groups (v_ty v)) x /\ make_from_dict (lie_class groups) [(v, group_value (v_ty v) x)] = Ok b /\
      compute_cost (pose_env groups) g a = Ok (c, r) /\ compute_cost (pose_env groups) g b = Ok (c', r') /\ c' < c.
Proof. exact settle_cheaper. Qed.
Print Assumptions C88_cheaper.

Theorem C88_minimum_refuted : exists fs g a val b c c' r r', (forall f, In f fs -> pose_factor ex_groups f /\ unit_measurement ex_groups f /\ informative (f_noise f)) /\ graph_make (pose_env ex_groups) fs = Ok g /\
  assigns (pose_env ex_groups) fs a val /\ same_layout (as_layout a) (g_layout g) /\ stays (pose_env ex_groups) fs g a val /\
  compute_cost (pose_env ex_groups) g a = Ok (c, r) /\ compute_cost (pose_env ex_groups) g b = Ok (c', r') /\ c' < c.
Proof. exact minimum_fails. Qed.
Print Assumptions C88_minimum_refuted.

(* non-vacuity: two priors on one pose in the plane, a quarter turn and a shift apart *)
Example C88_clash : moving (ex_groups (v_ty pa)) /\ legal_pose (ex_groups (v_ty pa)) [1; 0; 0; 0] /\ legal_pose (ex_groups (v_ty pa)) corner /\
  scales one3 (lg_dim (ex_groups (v_ty pa))) 1 /\ 0 < 1 / 2 < 1 /\ 1 * 1 * (1 / 2) = 1 * 1 * (1 - 1 / 2) /\
  (let d := lg_log (ex_groups (v_ty pa)) (lg_mul (ex_groups (v_ty pa)) (lg_inv (ex_groups (v_ty pa)) [1; 0; 0; 0]) corner) in
   cross (axis (ex_groups (v_ty pa)) d) (slide (ex_groups (v_ty pa)) d) <> [0; 0; 0]) /\
  exists g a, graph_make (pose_env ex_groups) ex_clash = Ok g /\
    assigns (pose_env ex_groups) ex_clash a (fun _ => group_value (v_ty pa) (on_the_way (ex_groups (v_ty pa)) (1 / 2) [1; 0; 0; 0] corner)) /\ same_layout (as_layout a) (g_layout g).
Proof. exact ex_clash_ok. Qed.

(* non-vacuity: uneven noise, one measurement twice as precise as the other *)
Example C88_uneven : linear_noise (uneven 1) /\ noise_ok (uneven 1) /\ noise_dim (uneven 1) = lg_dim (ex_groups (v_ty pa)) /\ multiple (uneven 1) 1 (uneven 1) /\ multiple (uneven 1) 2 (uneven 2) /\ 1 * 1 * (4 / 5) = 2 * 2 * (1 - 4 / 5) /\
  exists g a, graph_make (pose_env ex_groups) (two_priors pa [1; 0; 0; 0] (uneven 1) corner (uneven 2)) = Ok g /\
    assigns (pose_env ex_groups) (two_priors pa [1; 0; 0; 0] (uneven 1) corner (uneven 2)) a (fun _ => group_value (v_ty pa) (on_the_way (ex_groups (v_ty pa)) (4 / 5) [1; 0; 0; 0] corner)).
Proof. exact ex_uneven. Qed.

(* non-vacuity: two priors on one rotation in space *)
Example C88_tilt : turning (ex_groups (v_ty qv)) /\ legal_pose (ex_groups (v_ty qv)) [1; 0; 0; 0] /\ legal_pose (ex_groups (v_ty qv)) tilt /\
  scales one3 (lg_dim (ex_groups (v_ty qv))) 1 /\ scales two3 (lg_dim (ex_groups (v_ty qv))) 2 /\ 0 < 4 / 5 < 1 /\ 1 * 1 * (4 / 5) = 2 * 2 * (1 - 4 / 5) /\
  (exists g a, graph_make (pose_env ex_groups) ex_tilt = Ok g /\
    assigns (pose_env ex_groups) ex_tilt a (fun _ => group_value (v_ty qv) (on_the_way (ex_groups (v_ty qv)) (4 / 5) [1; 0; 0; 0] tilt)) /\ same_layout (as_layout a) (g_layout g)).
Proof. exact ex_tilt_ok. Qed.

(* non-vacuity: the gradient, away from the point of rest *)
Example C88_slope : (forall f, In f ex_tilt -> pose_factor ex_groups f /\ unit_measurement ex_groups f /\ (exists s, scales (f_noise f) (residual_dim f) s) /\
    vnorm (residual_at (pose_env ex_groups) (fun _ => group_value 3%nat [1; 0; 0; 0]) f) < PI) /\
  (forall v, In v (mentioned ex_tilt) -> turning (ex_groups (v_ty v))) /\
  exists g a, graph_make (pose_env ex_groups) ex_tilt = Ok g /\ wf_assign (lie_class ex_groups) [qv] false a /\ (forall t, of_type t [qv] = of_type t (mentioned ex_tilt)) /\
    forall v, In v [qv] -> get_value (lie_class ex_groups) a v = Ok (group_value 3%nat [1; 0; 0; 0]) /\ unit_pose (ex_groups (v_ty v)) (params (group_value 3%nat [1; 0; 0; 0])).
Proof. exact ex_slope. Qed.
