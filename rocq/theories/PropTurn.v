(* C86: graphs of planar rotations. *)
From Coq Require Import List Arith Bool Reals ZArith.
From Verif Require Import Num NumR Py Arr MLayout MAssign MNoise MSparse MFactor MGraph MLinear MSolver MLie MPose SpecLayout SpecTree SpecAssign SpecGraph SpecSolver SpecLie SpecPose SpecOutlier SpecStraight SpecTurn PSolver2 PExStraight PExTurn.
Import ListNotations.
Local Open Scope R_scope.

Theorem C86_gauss_newton : forall groups os fs init x, Forall2 bearing_factor os fs -> Forall (so2_bearing groups) os -> os <> [] ->
  assigns (pose_env groups) fs init (headings x) ->
  exists g r, graph_make (pose_env groups) fs = Ok g /\ compute_cost (pose_env groups) g init = Ok (turn_cost os x, r) /\
  (forall cfg fuel, (iteration_cap (max_iterations cfg) <= fuel)%nat ->
     exists a k, gn_solve (pose_env groups) fuel cfg cholmod_solve g init = Some (Ok a) /\ (1 <= k <= iteration_cap (max_iterations cfg))%nat /\
       improved (pose_env groups) fs g os x damping k a) /\
  (forall unroll it fuel, same_layout (as_layout init) (g_layout g) -> (1 <= it)%Z -> (Z.to_nat it <= fuel)%nat ->
     exists a, fixed_solve (pose_env groups) fuel unroll it cholmod_solve g init = Some (Ok a) /\ improved (pose_env groups) fs g os x damping (Z.to_nat it) a).
Proof. exact turn_gauss_newton. Qed.
Print Assumptions C86_gauss_newton.

Theorem C86_levenberg_marquardt : forall groups os fs init x cfg fuel, Forall2 bearing_factor os fs -> Forall (so2_bearing groups) os -> os <> [] ->
  assigns (pose_env groups) fs init (headings x) -> (iteration_cap (max_iterations (lm_term cfg)) <= fuel)%nat ->
  0 < lambda_initial cfg -> 1 <= lambda_factor cfg -> 0 < lambda_min cfg -> lm_quality_min cfg <= 1 ->
  exists g a k, graph_make (pose_env groups) fs = Ok g /\
    lm_solve (pose_env groups) fuel cfg cholmod_solve g init = Some (Ok a) /\ (1 <= k <= iteration_cap (max_iterations (lm_term cfg)))%nat /\
    improved (pose_env groups) fs g os x (lambda_initial cfg + damping) k a.
Proof. exact turn_levenberg_marquardt. Qed.
Print Assumptions C86_levenberg_marquardt.

Theorem C86_all_angles : forall (p : list R), length p = 2%nat -> norm2 p = 1 -> exists t, - PI < t <= PI /\ p = [cos t; sin t].
Proof. exact all_headings. Qed.
Print Assumptions C86_all_angles.

Theorem C86_global_optimum_refuted : exists groups os fs g init x, Forall2 bearing_factor os fs /\ Forall (so2_bearing groups) os /\ os <> [] /\
  graph_make (pose_env groups) fs = Ok g /\ assigns (pose_env groups) fs init (headings x) /\ tame os (turn_cost os x) /\
  (forall cfg fuel, (iteration_cap (max_iterations cfg) <= fuel)%nat ->
     exists a r, gn_solve (pose_env groups) fuel cfg cholmod_solve g init = Some (Ok a) /\ compute_cost (pose_env groups) g a = Ok (4 * PI * PI / 5, r)) /\
  (forall cfg fuel, (iteration_cap (max_iterations (lm_term cfg)) <= fuel)%nat -> 0 < lambda_initial cfg -> 1 <= lambda_factor cfg -> 0 < lambda_min cfg -> lm_quality_min cfg <= 1 ->
     exists a r, lm_solve (pose_env groups) fuel cfg cholmod_solve g init = Some (Ok a) /\ compute_cost (pose_env groups) g a = Ok (4 * PI * PI / 5, r)) /\
  exists b r, assigns (pose_env groups) fs b (headings (fun _ => 0)) /\ compute_cost (pose_env groups) g b = Ok (0, r).
Proof. exact ring_stuck. Qed.
Print Assumptions C86_global_optimum_refuted.

(* non-vacuity: two rotations started below the bound and not settled *)
Example C86_case : Forall2 bearing_factor two_turns two_turns_fs /\ Forall (so2_bearing so2s) two_turns /\
  turn_cost two_turns (fun _ => 0) = 5 /\ tame two_turns (turn_cost two_turns (fun _ => 0)) /\ ~ settled two_turns (fun _ => 0) /\
  flat_cost two_turns (fun _ => 0) simple_best = 1 / 3 /\ exists init, assigns (pose_env so2s) two_turns_fs init (headings (fun _ => 0)).
Proof. exact two_turns_case. Qed.
