(* C106: on a pose graph whose measurements all hold at some poses, the solvers do not drift along motions no measurement can see: the iterates converge to one exact fit, near the start. *)
From Coq Require Import List Arith Bool Reals ZArith.
From Verif Require Import Num NumR Py Arr MLayout MAssign MNoise MSparse MFactor MGraph MLinear MSolver MLie MPose SpecLayout SpecTree SpecAssign SpecNoise SpecGraph SpecLie SpecPose SpecZero SpecSpatial SpecTwin SpecInv SpecOrder SpecSolver SpecLocal SpecFrame SpecBook SpecNear SpecBasin SpecGauge SpecLoose Ex ExG ExS PExInv PExBasin PExGauge PExLoose SpecDrift PExDrift.
Import ListNotations.
Local Open Scope R_scope.

Theorem C106_iterates_have_a_limit : forall groups fs z g, fs <> [] -> solved_by groups fs z -> graph_make (pose_env groups) fs = Ok g ->
  exists q C rho, 0 <= q < 1 /\ 0 <= C /\ 0 < rho /\ forall init val e, assigns (pose_env groups) fs init val -> same_layout (as_layout init) (g_layout g) -> apart groups fs z val e -> size fs e <= rho ->
    exists w, alike groups fs z w /\ within fs (C * size fs e) val w /\
    (forall cfg fuel, (iteration_cap (max_iterations cfg) <= fuel)%nat ->
       exists a' k val', gn_solve (pose_env groups) fuel cfg cholmod_solve g init = Some (Ok a') /\ (1 <= k <= iteration_cap (max_iterations cfg))%nat /\
         assigns (pose_env groups) fs a' val' /\ within fs (C * q ^ k * size fs e) val' w) /\
    (forall unroll it fuel, (1 <= it)%Z -> (Z.to_nat it <= fuel)%nat ->
       exists a' val', fixed_solve (pose_env groups) fuel unroll it cholmod_solve g init = Some (Ok a') /\
         assigns (pose_env groups) fs a' val' /\ within fs (C * q ^ Z.to_nat it * size fs e) val' w).
Proof. exact drift_solves. Qed.
Print Assumptions C106_iterates_have_a_limit.

Theorem C106_trust_region_ends_near_start : forall groups fs z g, fs <> [] -> solved_by groups fs z -> graph_make (pose_env groups) fs = Ok g ->
  (forall cfg, 0 < lambda_initial cfg -> 1 <= lambda_factor cfg -> 0 < lambda_min cfg -> lm_quality_min cfg < 1 ->
     exists q C rho, 0 <= q < 1 /\ 0 <= C /\ 0 < rho /\ forall init val e fuel, assigns (pose_env groups) fs init val -> apart groups fs z val e -> size fs e <= rho ->
       (iteration_cap (max_iterations (lm_term cfg)) <= fuel)%nat ->
       exists a' k val' w, lm_solve (pose_env groups) fuel cfg cholmod_solve g init = Some (Ok a') /\ (1 <= k <= iteration_cap (max_iterations (lm_term cfg)))%nat /\
         assigns (pose_env groups) fs a' val' /\ alike groups fs z w /\ within fs (C * size fs e) val w /\ within fs (C * q ^ k * size fs e) val' w) /\
  (forall cfg, 0 < radius_initial cfg -> dl_quality_min cfg < 1 ->
     exists q C rho, 0 <= q < 1 /\ 0 <= C /\ 0 < rho /\ forall init val e fuel, assigns (pose_env groups) fs init val -> apart groups fs z val e -> size fs e <= rho ->
       (iteration_cap (max_iterations (dl_term cfg)) <= fuel)%nat ->
       exists a' k val' w, dl_solve (pose_env groups) fuel cfg cholmod_solve g init = Some (Ok a') /\ (1 <= k <= iteration_cap (max_iterations (dl_term cfg)))%nat /\
         assigns (pose_env groups) fs a' val' /\ alike groups fs z w /\ within fs (C * size fs e) val w /\ within fs (C * q ^ k * size fs e) val' w).
Proof. exact drift_trust. Qed.
Print Assumptions C106_trust_region_ends_near_start.

Theorem C106_limits_fit_exactly : forall groups fs z w, solved_by groups fs z -> alike groups fs z w ->
  cost_at (pose_env groups) fs w = 0 /\ forall v, In v (mentioned fs) -> pose_value groups (v_ty v) (w v) /\ unit_pose (groups (v_ty v)) (params (w v)).
Proof. exact drift_fits. Qed.
Print Assumptions C106_limits_fit_exactly.

(* non-vacuity: four poses in space, two held by a prior, two floating *)
Example C106_example : solved_by ex_groups ex_parted ex_spread /\ ex_parted <> [] /\ tied ex_parted sb /\ joined ex_parted sc sd /\
  (exists g, graph_make (pose_env ex_groups) ex_parted = Ok g) /\
  forall e, tangent (pose_env ex_groups) ex_parted e -> exists init val, apart ex_groups ex_parted ex_spread val e /\ assigns (pose_env ex_groups) ex_parted init val /\
    forall g, graph_make (pose_env ex_groups) ex_parted = Ok g -> same_layout (as_layout init) (g_layout g).
Proof. exact ex_loose. Qed.
