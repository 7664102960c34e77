(* C105: any pose graph whose measurements all hold at some poses, whatever its connections: all solvers converge to such poses, up to motions that no measurement can see. *)
From Coq Require Import List Arith Bool Reals ZArith.
From Verif Require Import Num NumR Py Arr MLayout MAssign MNoise MSparse MFactor MGraph MLinear MSolver MLie MPose SpecLayout SpecTree SpecAssign SpecNoise SpecGraph SpecLie SpecPose SpecZero SpecSpatial SpecTwin SpecInv SpecOrder SpecSolver SpecLocal SpecFrame SpecBook SpecNear SpecBasin SpecGauge SpecLoose Ex ExG ExS PExInv PExBasin PExGauge PExLoose.
Import ListNotations.
Local Open Scope R_scope.

Theorem C105_every_consistent_graph_converges : forall groups fs z g, fs <> [] -> solved_by groups fs z -> graph_make (pose_env groups) fs = Ok g ->
  exists q C rho, 0 <= q < 1 /\ 0 <= C /\ 0 < rho /\ forall init val e fuel, assigns (pose_env groups) fs init val -> apart groups fs z val e -> size fs e <= rho ->
    (forall cfg, (iteration_cap (max_iterations cfg) <= fuel)%nat ->
       exists a' k val', gn_solve (pose_env groups) fuel cfg cholmod_solve g init = Some (Ok a') /\ (1 <= k <= iteration_cap (max_iterations cfg))%nat /\
         assigns (pose_env groups) fs a' val' /\ restored groups fs z q C k val e val') /\
    (forall unroll it, same_layout (as_layout init) (g_layout g) -> (1 <= it)%Z -> (Z.to_nat it <= fuel)%nat ->
       exists a' val', fixed_solve (pose_env groups) fuel unroll it cholmod_solve g init = Some (Ok a') /\
         assigns (pose_env groups) fs a' val' /\ restored groups fs z q C (Z.to_nat it) val e val').
Proof. exact loose_solves. Qed.
Print Assumptions C105_every_consistent_graph_converges.

Theorem C105_every_consistent_graph_converges_trust_region : forall groups fs z g, fs <> [] -> solved_by groups fs z -> graph_make (pose_env groups) fs = Ok g ->
  (forall cfg, 0 < lambda_initial cfg -> 1 <= lambda_factor cfg -> 0 < lambda_min cfg -> lm_quality_min cfg < 1 ->
     exists q C rho, 0 <= q < 1 /\ 0 <= C /\ 0 < rho /\ forall init val e fuel, assigns (pose_env groups) fs init val -> apart groups fs z val e -> size fs e <= rho ->
       (iteration_cap (max_iterations (lm_term cfg)) <= fuel)%nat ->
       exists a' k val', lm_solve (pose_env groups) fuel cfg cholmod_solve g init = Some (Ok a') /\ (1 <= k <= iteration_cap (max_iterations (lm_term cfg)))%nat /\
         assigns (pose_env groups) fs a' val' /\ restored groups fs z q C k val e val') /\
  (forall cfg, 0 < radius_initial cfg -> dl_quality_min cfg < 1 ->
     exists q C rho, 0 <= q < 1 /\ 0 <= C /\ 0 < rho /\ forall init val e fuel, assigns (pose_env groups) fs init val -> apart groups fs z val e -> size fs e <= rho ->
       (iteration_cap (max_iterations (dl_term cfg)) <= fuel)%nat ->
       exists a' k val', dl_solve (pose_env groups) fuel cfg cholmod_solve g init = Some (Ok a') /\ (1 <= k <= iteration_cap (max_iterations (dl_term cfg)))%nat /\
         assigns (pose_env groups) fs a' val' /\ restored groups fs z q C k val e val').
Proof. exact loose_trust. Qed.
Print Assumptions C105_every_consistent_graph_converges_trust_region.

Theorem C105_any_accuracy : forall groups fs z g, fs <> [] -> solved_by groups fs z -> graph_make (pose_env groups) fs = Ok g ->
  exists rho, 0 < rho /\ forall eps, 0 < eps -> exists least, (1 <= least)%Z /\ forall it unroll init val e, (least <= it)%Z ->
    assigns (pose_env groups) fs init val -> same_layout (as_layout init) (g_layout g) -> apart groups fs z val e -> size fs e <= rho ->
    exists a' val' e', fixed_solve (pose_env groups) (Z.to_nat it) unroll it cholmod_solve g init = Some (Ok a') /\ assigns (pose_env groups) fs a' val' /\ apart groups fs z val' e' /\ size fs e' < eps.
Proof. exact loose_limit. Qed.
Print Assumptions C105_any_accuracy.

Theorem C105_unseen_motion_changes_nothing : forall groups fs z val val', solved_by groups fs z -> alike groups fs val val' ->
  (forall v, In v (mentioned fs) -> value_ok (e_cls (pose_env groups) (v_ty v)) (val v)) ->
  cost_at (pose_env groups) fs val' = cost_at (pose_env groups) fs val /\
  (forall v, In v (mentioned fs) -> tied fs v -> val' v = val v) /\
  forall u v, In u (mentioned fs) -> joined fs u v -> In v (mentioned fs) -> let raw := groups (v_ty u) in
    lg_mul raw (lg_inv raw (params (val' u))) (params (val' v)) = lg_mul raw (lg_inv raw (params (val u))) (params (val v)).
Proof. exact loose_shape. Qed.
Print Assumptions C105_unseen_motion_changes_nothing.

(* non-vacuity: four poses in space, two held by a prior, two floating *)
Example C105_example : solved_by ex_groups ex_parted ex_spread /\ ex_parted <> [] /\ tied ex_parted sb /\ joined ex_parted sc sd /\
  (exists g, graph_make (pose_env ex_groups) ex_parted = Ok g) /\
  forall e, tangent (pose_env ex_groups) ex_parted e -> exists init val, apart ex_groups ex_parted ex_spread val e /\ assigns (pose_env ex_groups) ex_parted init val /\
    forall g, graph_make (pose_env ex_groups) ex_parted = Ok g -> same_layout (as_layout init) (g_layout g).
Proof. exact ex_loose. Qed.
