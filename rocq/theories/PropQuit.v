(* C107: on every consistent pose graph the stopping tests bound the error that the measurements can see *)
From Coq Require Import List Arith Bool Reals ZArith.
From Verif Require Import Num NumR Py Arr MLayout MAssign MNoise MSparse MFactor MGraph MLinear MSolver MLie MPose SpecLayout SpecTree SpecAssign SpecNoise SpecGraph SpecLie SpecPose SpecZero SpecSpatial SpecTwin SpecInv SpecOrder SpecSolver SpecLocal SpecFrame SpecBook SpecNear SpecBasin SpecGauge SpecLoose Ex ExG ExS PExInv PExBasin PExGauge PExLoose SpecDrift  SpecPoseStop SpecQuit PExQuit.
Import ListNotations.
Local Open Scope R_scope.

Theorem C107_solves : forall groups fs z g, fs <> [] -> solved_by groups fs z -> graph_make (pose_env groups) fs = Ok g ->
  (exists q C rho D delta, 0 <= q < 1 /\ 0 <= C /\ 0 < rho /\ 0 <= D /\ 0 < delta /\
     forall cfg, quits groups fs z rho q C D delta cfg (fun fuel => gn_solve (pose_env groups) fuel cfg cholmod_solve g)) /\
  (forall qmin lambda, qmin < 1 -> 0 < lambda -> exists q C rho D delta, 0 <= q < 1 /\ 0 <= C /\ 0 < rho /\ 0 <= D /\ 0 < delta /\
     forall cfg, lm_quality_min cfg <= qmin -> 1 <= lambda_factor cfg -> 0 < lambda_min cfg -> 0 < lambda_initial cfg <= lambda ->
       quits groups fs z rho q C D delta (lm_term cfg) (fun fuel => lm_solve (pose_env groups) fuel cfg cholmod_solve g)) /\
  (forall qmin radius, qmin < 1 -> 0 < radius -> exists q C rho D delta, 0 <= q < 1 /\ 0 <= C /\ 0 < rho /\ 0 <= D /\ 0 < delta /\
     forall cfg, dl_quality_min cfg <= qmin -> radius <= radius_initial cfg ->
       quits groups fs z rho q C D delta (dl_term cfg) (fun fuel => dl_solve (pose_env groups) fuel cfg cholmod_solve g)).
Proof. exact quit_solves. Qed.
Print Assumptions C107_solves.

Theorem C107_accuracy : forall groups fs z g, fs <> [] -> solved_by groups fs z -> graph_make (pose_env groups) fs = Ok g ->
  exists rho, 0 < rho /\ forall eps bound, 0 < eps -> 0 <= bound -> exists delta N, 0 < delta /\ forall t,
    quits_close groups fs z rho bound eps delta N t (fun fuel => gn_solve (pose_env groups) fuel t cholmod_solve g) /\
    quits_close groups fs z rho bound eps delta N t (fun fuel => lm_solve (pose_env groups) fuel (lm_with t) cholmod_solve g) /\
    quits_close groups fs z rho bound eps delta N t (fun fuel => dl_solve (pose_env groups) fuel (dl_with t) cholmod_solve g).
Proof. exact quit_accuracy. Qed.
Print Assumptions C107_accuracy.

(* non-vacuity: starting values as close as wanted on a graph whose second part is free, and settings as required *)
Example C107_example : solved_by ex_groups ex_parted ex_spread /\ ex_parted <> [] /\ (exists g, graph_make (pose_env ex_groups) ex_parted = Ok g) /\
  forall rho, 0 < rho -> exists bound e init val, 0 <= bound /\ apart ex_groups ex_parted ex_spread val e /\ assigns (pose_env ex_groups) ex_parted init val /\ poses_below ex_parted bound val /\ 0 < size ex_parted e <= rho /\
    forall delta N, 0 < delta -> exists cfg, cost_tolerance cfg <= delta /\ 0 < parameter_tolerance cfg <= delta /\ (Z.of_nat N <= max_iterations cfg <= gradient_start cfg)%Z.
Proof. exact ex_quit. Qed.
