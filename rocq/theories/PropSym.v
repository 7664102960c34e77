(* Theorem C63: solving a moved problem gives the moved solution. *)
From Coq Require Import List Arith Bool ZArith Reals.
From Verif Require Import Num NumR Py Arr MLayout MAssign MNoise MSparse MFactor MGraph MLinear MSolver MLie MPose SpecLayout SpecTree SpecAssign SpecGraph SpecSparse SpecSolver SpecOrder SpecLie SpecInv SpecPose SpecSym SpecFrame.
From Verif Require Import Ex ExG ExS PExInv PExSym.
Import ListNotations.

Theorem C63_solve_commutes_with_symmetries :
  forall (T : Type) (N : Num T) (E : env T) (fs : list (factor T)) mv S lin g g',
  symmetry E fs mv S -> well_posed E fs -> total_solver lin ->
  graph_make E fs = Ok g -> graph_make E (map mv fs) = Ok g' ->
  forall solve fuel init init' val val', value_free_solver E lin solve ->
  assigns E fs init val -> assigns E fs init' val' -> related_values E fs S val val' ->
  related_outcome E fs S (solve fuel g init) (solve fuel g' init').
Proof. exact @symmetric_solve. Qed.
Print Assumptions C63_solve_commutes_with_symmetries.

Theorem C63_fixed_iteration :
  forall (T : Type) (N : Num T) (E : env T) (fs : list (factor T)) mv S lin g g',
  symmetry E fs mv S -> well_posed E fs -> total_solver lin ->
  graph_make E fs = Ok g -> graph_make E (map mv fs) = Ok g' ->
  forall fuel unroll it init init' val val',
  assigns E fs init val -> assigns E fs init' val' -> related_values E fs S val val' ->
  same_layout (as_layout init) (g_layout g) -> same_layout (as_layout init') (g_layout g) ->
  related_outcome E fs S (fixed_solve E fuel unroll it lin g init) (fixed_solve E fuel unroll it lin g' init').
Proof. exact @symmetric_fixed. Qed.
Print Assumptions C63_fixed_iteration.

Theorem C63_frame_invariance :
  forall groups frame fs lin, unit_frame groups frame -> (forall f, In f fs -> pose_factor groups f) ->
  (forall v, In v (mentioned fs) -> planar (groups (v_ty v)) \/ spatial (groups (v_ty v))) -> fs <> [] -> total_solver lin ->
  exists g g', graph_make (pose_env groups) fs = Ok g /\ graph_make (pose_env groups) (map (move_factor groups frame) fs) = Ok g' /\
  forall init init' val, assigns (pose_env groups) fs init val -> assigns (pose_env groups) fs init' (fun v => move groups frame (v_ty v) (val v)) ->
  (forall solve fuel, value_free_solver (pose_env groups) lin solve ->
     related_outcome (pose_env groups) fs (moved groups frame) (solve fuel g init) (solve fuel g' init')) /\
  (forall fuel unroll it, same_layout (as_layout init) (g_layout g) -> same_layout (as_layout init') (g_layout g) ->
     related_outcome (pose_env groups) fs (moved groups frame) (fixed_solve (pose_env groups) fuel unroll it lin g init) (fixed_solve (pose_env groups) fuel unroll it lin g' init')).
Proof. exact frame_invariance. Qed.
Print Assumptions C63_frame_invariance.

Theorem C63_gauge_freedom :
  forall groups frame fs lin g, unit_frame groups frame -> (forall f, In f fs -> pose_factor groups f /\ f_cls f = 1) ->
  (forall v, In v (mentioned fs) -> planar (groups (v_ty v)) \/ spatial (groups (v_ty v))) -> fs <> [] -> total_solver lin ->
  graph_make (pose_env groups) fs = Ok g ->
  forall init init' val, assigns (pose_env groups) fs init val -> assigns (pose_env groups) fs init' (fun v => move groups frame (v_ty v) (val v)) ->
  forall solve fuel, value_free_solver (pose_env groups) lin solve ->
     related_outcome (pose_env groups) fs (moved groups frame) (solve fuel g init) (solve fuel g init').
Proof. exact gauge_freedom. Qed.
Print Assumptions C63_gauge_freedom.

Theorem C63_settings :
  forall cfg : term_cfg R, (max_iterations cfg - 1 <= gradient_start cfg)%Z -> parameter_tolerance cfg = 0%R -> value_free cfg.
Proof. exact zero_tolerance. Qed.
Print Assumptions C63_settings.

Theorem C63_default_settings_refuted :
  exists (E : env R) fs mv S g g' init init' val val',
  symmetry E fs mv S /\ well_posed E fs /\ graph_make E fs = Ok g /\ graph_make E (map mv fs) = Ok g' /\
  assigns E fs init val /\ assigns E fs init' val' /\ related_values E fs S val val' /\
  ~ related_outcome E fs S (gn_solve E 2 (term_default 2) cholmod_solve g init) (gn_solve E 2 (term_default 2) cholmod_solve g' init').
Proof. exact default_tests_see_frame. Qed.
Print Assumptions C63_default_settings_refuted.

Example C63_example : unit_frame ex_groups ex_frame /\ (forall f, In f ex_poses -> pose_factor ex_groups f) /\
  (forall v, In v (mentioned ex_poses) -> planar (ex_groups (v_ty v)) \/ spatial (ex_groups (v_ty v))) /\
  assigns (pose_env ex_groups) ex_poses ex_start ex_val /\
  assigns (pose_env ex_groups) ex_poses ex_start' (fun v => move ex_groups ex_frame (v_ty v) (ex_val v)) /\
  map (move_factor ex_groups ex_frame) ex_poses <> ex_poses /\ value_free free_cfg /\
  exists g a, graph_make (pose_env ex_groups) ex_poses = Ok g /\ gn_solve (pose_env ex_groups) 10 free_cfg cholmod_solve g ex_start = Some (Ok a).
Proof. exact ex_frame_ok. Qed.
