(* C103: near poses at which all measurements hold, solves on pose graphs end as close as the tolerances ask for *)
From Coq Require Import List Arith Bool Reals ZArith.
From Verif Require Import Num NumR Py Arr MLayout MAssign MNoise MSparse MFactor MGraph MLinear MSolver MLie MPose SpecLayout SpecTree SpecAssign SpecGraph SpecLie SpecPose SpecSolver SpecBook SpecNear SpecBasin SpecPoseStop ExS PExInv PExBasin PExPoseStop.
Import ListNotations.
Local Open Scope R_scope.

Theorem C103_solves : forall groups fs z g, fs <> [] -> solved_by groups fs z -> rigid groups fs z -> graph_make (pose_env groups) fs = Ok g ->
  (exists q rho D delta, 0 <= q < 1 /\ 0 < rho /\ 0 <= D /\ 0 < delta /\
     forall cfg, pose_stops (pose_env groups) fs z rho q D delta cfg (fun fuel => gn_solve (pose_env groups) fuel cfg cholmod_solve g)) /\
  (forall qmin lambda, qmin < 1 -> 0 < lambda -> exists q rho D delta, 0 <= q < 1 /\ 0 < rho /\ 0 <= D /\ 0 < delta /\
     forall cfg, lm_quality_min cfg <= qmin -> 1 <= lambda_factor cfg -> 0 < lambda_min cfg -> 0 < lambda_initial cfg <= lambda ->
       pose_stops (pose_env groups) fs z rho q D delta (lm_term cfg) (fun fuel => lm_solve (pose_env groups) fuel cfg cholmod_solve g)) /\
  (forall qmin radius, qmin < 1 -> 0 < radius -> exists q rho D delta, 0 <= q < 1 /\ 0 < rho /\ 0 <= D /\ 0 < delta /\
     forall cfg, dl_quality_min cfg <= qmin -> radius <= radius_initial cfg ->
       pose_stops (pose_env groups) fs z rho q D delta (dl_term cfg) (fun fuel => dl_solve (pose_env groups) fuel cfg cholmod_solve g)).
Proof. exact pose_stop_solves. Qed.
Print Assumptions C103_solves.

Theorem C103_accuracy : forall groups fs z g, fs <> [] -> solved_by groups fs z -> rigid groups fs z -> graph_make (pose_env groups) fs = Ok g ->
  (exists rho, 0 < rho /\ forall eps, 0 < eps -> exists delta N, 0 < delta /\
     forall cfg, pose_accurate (pose_env groups) fs z rho eps delta N cfg (fun fuel => gn_solve (pose_env groups) fuel cfg cholmod_solve g)) /\
  (forall qmin lambda, qmin < 1 -> 0 < lambda -> exists rho, 0 < rho /\ forall eps, 0 < eps -> exists delta N, 0 < delta /\
     forall cfg, lm_quality_min cfg <= qmin -> 1 <= lambda_factor cfg -> 0 < lambda_min cfg -> 0 < lambda_initial cfg <= lambda ->
       pose_accurate (pose_env groups) fs z rho eps delta N (lm_term cfg) (fun fuel => lm_solve (pose_env groups) fuel cfg cholmod_solve g)) /\
  (forall qmin radius, qmin < 1 -> 0 < radius -> exists rho, 0 < rho /\ forall eps, 0 < eps -> exists delta N, 0 < delta /\
     forall cfg, dl_quality_min cfg <= qmin -> radius <= radius_initial cfg ->
       pose_accurate (pose_env groups) fs z rho eps delta N (dl_term cfg) (fun fuel => dl_solve (pose_env groups) fuel cfg cholmod_solve g)).
Proof. exact pose_stop_accuracy. Qed.
Print Assumptions C103_accuracy.

Theorem C103_tied : forall groups fs z g, fs <> [] -> solved_by groups fs z -> (forall v, In v (mentioned fs) -> tied fs v) -> graph_make (pose_env groups) fs = Ok g ->
  exists rho, 0 < rho /\ forall eps, 0 < eps -> exists delta N, 0 < delta /\ forall t,
    pose_accurate (pose_env groups) fs z rho eps delta N t (fun fuel => gn_solve (pose_env groups) fuel t cholmod_solve g) /\
    pose_accurate (pose_env groups) fs z rho eps delta N t (fun fuel => lm_solve (pose_env groups) fuel (lm_with t) cholmod_solve g) /\
    pose_accurate (pose_env groups) fs z rho eps delta N t (fun fuel => dl_solve (pose_env groups) fuel (dl_with t) cholmod_solve g).
Proof. exact pose_stop_tied. Qed.
Print Assumptions C103_tied.

(* non-vacuity: non-vacuity: two poses in space with a Huber loss, and inexact starting values as close as wanted *)
Example C103_example : solved_by ex_groups ex_space ex_placed /\ (forall v, In v (mentioned ex_space) -> tied ex_space v) /\ (exists g, graph_make (pose_env ex_groups) ex_space = Ok g) /\
  forall rho delta N, 0 < rho -> 0 < delta -> exists e init val cfg, tangent (pose_env ex_groups) ex_space e /\ moved (pose_env ex_groups) ex_space ex_placed e val /\ assigns (pose_env ex_groups) ex_space init val /\
    0 < size ex_space e <= rho /\ cost_tolerance cfg <= delta /\ 0 <= parameter_tolerance cfg <= delta /\ (Z.of_nat N <= max_iterations cfg <= gradient_start cfg)%Z.
Proof. exact ex_pose_stop. Qed.
