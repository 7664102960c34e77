(* C83: SE(2) pose graphs along a straight line. *)
From Coq Require Import List Arith Bool Reals ZArith.
From Verif Require Import Num NumR Py Arr MLayout MAssign MNoise MSparse MFactor MGraph MLinear MSolver MLie MPose SpecLayout SpecTree SpecAssign SpecGraph SpecSolver SpecLie SpecPose SpecOutlier SpecStraight PSolver2 PExStraight.
Import ListNotations.
Local Open Scope R_scope.

Theorem C83_gauss_newton : forall groups os fs init x, Forall2 sight_factor os fs -> Forall (se2_sight groups) os -> os <> [] ->
  assigns (pose_env groups) fs init (along_x x) ->
  exists g, graph_make (pose_env groups) fs = Ok g /\
  (forall cfg fuel, (iteration_cap (max_iterations cfg) <= fuel)%nat ->
     exists a k x' r, gn_solve (pose_env groups) fuel cfg cholmod_solve g init = Some (Ok a) /\ (1 <= k <= iteration_cap (max_iterations cfg))%nat /\
       assigns (pose_env groups) fs a (along_x x') /\ compute_cost (pose_env groups) g a = Ok (line_cost os x', r) /\
       ((exists z, line_cost os z < line_cost os x) -> line_cost os x' < line_cost os x) /\
       forall z, line_cost os x' <= line_cost os z + damping * dist2 (mentioned fs) z x / INR k) /\
  (forall unroll it fuel, same_layout (as_layout init) (g_layout g) -> (1 <= it)%Z -> (Z.to_nat it <= fuel)%nat ->
     exists a x' r, fixed_solve (pose_env groups) fuel unroll it cholmod_solve g init = Some (Ok a) /\
       assigns (pose_env groups) fs a (along_x x') /\ compute_cost (pose_env groups) g a = Ok (line_cost os x', r) /\
       ((exists z, line_cost os z < line_cost os x) -> line_cost os x' < line_cost os x) /\
       forall z, line_cost os x' <= line_cost os z + damping * dist2 (mentioned fs) z x / INR (Z.to_nat it)).
Proof. exact line_gauss_newton. Qed.
Print Assumptions C83_gauss_newton.

Theorem C83_levenberg_marquardt : forall groups os fs init x cfg fuel, Forall2 sight_factor os fs -> Forall (se2_sight groups) os -> os <> [] ->
  assigns (pose_env groups) fs init (along_x x) -> (iteration_cap (max_iterations (lm_term cfg)) <= fuel)%nat ->
  0 < lambda_initial cfg -> 1 <= lambda_factor cfg -> 0 < lambda_min cfg -> lm_quality_min cfg <= 1 ->
  exists g a k x' r, graph_make (pose_env groups) fs = Ok g /\
    lm_solve (pose_env groups) fuel cfg cholmod_solve g init = Some (Ok a) /\ (1 <= k <= iteration_cap (max_iterations (lm_term cfg)))%nat /\
    assigns (pose_env groups) fs a (along_x x') /\ compute_cost (pose_env groups) g a = Ok (line_cost os x', r) /\
    ((exists z, line_cost os z < line_cost os x) -> line_cost os x' < line_cost os x) /\
    forall z, line_cost os x' <= line_cost os z + (lambda_initial cfg + damping) * dist2 (mentioned fs) z x / INR k.
Proof. exact line_levenberg_marquardt. Qed.
Print Assumptions C83_levenberg_marquardt.

Theorem C83_tests : forall ln det init g, make_from_defaults (lie_class (fun _ => raw_se2)) [pose_a; pose_b] = Ok init -> graph_make (pose_env (fun _ => raw_se2)) simple_fs = Ok g ->
  (forall cfg fuel, (iteration_cap (max_iterations cfg) <= fuel)%nat -> exists a before after,
     gn_solve (pose_env (fun _ => raw_se2)) fuel cfg cholmod_solve g init = Some (Ok a) /\
     compute_joint_nll (pose_env (fun _ => raw_se2)) ln det g init = Ok before /\ compute_joint_nll (pose_env (fun _ => raw_se2)) ln det g a = Ok after /\
     before - after > 4666 / 1000) /\
  (forall cfg fuel, (iteration_cap (max_iterations (lm_term cfg)) <= fuel)%nat -> 0 < lambda_initial cfg -> 1 <= lambda_factor cfg -> 0 < lambda_min cfg -> lm_quality_min cfg <= 1 ->
     exists a before after,
     lm_solve (pose_env (fun _ => raw_se2)) fuel cfg cholmod_solve g init = Some (Ok a) /\
     compute_joint_nll (pose_env (fun _ => raw_se2)) ln det g init = Ok before /\ compute_joint_nll (pose_env (fun _ => raw_se2)) ln det g a = Ok after /\
     before > after).
Proof. exact simple_tests. Qed.
Print Assumptions C83_tests.

(* non-vacuity: the graph of tests/test_pose_graphs.py, whose optimum is (1/3, 5/3) *)
Example C83_case : let groups := fun _ : vty => raw_se2 in
  Forall2 sight_factor simple simple_fs /\ Forall (se2_sight groups) simple /\
  line_cost simple (fun _ => 0) = 5 /\ line_cost simple simple_best = 1 / 3 /\ (forall z, 1 / 3 <= line_cost simple z) /\
  dist2 (mentioned simple_fs) simple_best (fun _ => 0) = 26 / 9 /\
  exists init, make_from_defaults (lie_class groups) [pose_a; pose_b] = Ok init /\ assigns (pose_env groups) simple_fs init (along_x (fun _ => 0)).
Proof. exact simple_case. Qed.
