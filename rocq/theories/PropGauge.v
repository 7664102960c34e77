(* C104: a pose graph made of relative measurements only, with exact measurements: all solvers converge to the solution up to a common motion of all poses. *)
From Coq Require Import List Arith Bool Reals ZArith.
From Verif Require Import Num NumR Py Arr MLayout MAssign MNoise MSparse MFactor MGraph MLinear MSolver MLie MPose SpecLayout SpecTree SpecAssign SpecNoise SpecGraph SpecLie SpecPose SpecZero SpecSpatial SpecTwin SpecInv SpecOrder SpecSolver SpecLocal SpecFrame SpecBook SpecNear SpecBasin SpecGauge Ex ExG ExS PExInv PExBasin PExGauge.
Import ListNotations.
Local Open Scope R_scope.

Theorem C104_floating_graphs_converge : forall groups fs z v0 g, solved_by groups fs z -> (forall f, In f fs -> f_cls f = 1%nat) -> In v0 (mentioned fs) -> (forall v, In v (mentioned fs) -> joined fs v0 v) -> graph_make (pose_env groups) fs = Ok g ->
  exists q C rho, 0 <= q < 1 /\ 0 <= C /\ 0 < rho /\ forall init val e fuel, assigns (pose_env groups) fs init val -> off_by groups fs z val e -> size fs e <= rho ->
    (forall cfg, (iteration_cap (max_iterations cfg) <= fuel)%nat ->
       exists a' k val', gn_solve (pose_env groups) fuel cfg cholmod_solve g init = Some (Ok a') /\ (1 <= k <= iteration_cap (max_iterations cfg))%nat /\
         assigns (pose_env groups) fs a' val' /\ regained groups fs z q C k val e val') /\
    (forall unroll it, same_layout (as_layout init) (g_layout g) -> (1 <= it)%Z -> (Z.to_nat it <= fuel)%nat ->
       exists a' val', fixed_solve (pose_env groups) fuel unroll it cholmod_solve g init = Some (Ok a') /\
         assigns (pose_env groups) fs a' val' /\ regained groups fs z q C (Z.to_nat it) val e val').
Proof. exact gauge_solves. Qed.
Print Assumptions C104_floating_graphs_converge.

Theorem C104_floating_graphs_converge_trust_region : forall groups fs z v0 g, solved_by groups fs z -> (forall f, In f fs -> f_cls f = 1%nat) -> In v0 (mentioned fs) -> (forall v, In v (mentioned fs) -> joined fs v0 v) -> graph_make (pose_env groups) fs = Ok g ->
  (forall cfg, 0 < lambda_initial cfg -> 1 <= lambda_factor cfg -> 0 < lambda_min cfg -> lm_quality_min cfg < 1 ->
     exists q C rho, 0 <= q < 1 /\ 0 <= C /\ 0 < rho /\ forall init val e fuel, assigns (pose_env groups) fs init val -> off_by groups fs z val e -> size fs e <= rho ->
       (iteration_cap (max_iterations (lm_term cfg)) <= fuel)%nat ->
       exists a' k val', lm_solve (pose_env groups) fuel cfg cholmod_solve g init = Some (Ok a') /\ (1 <= k <= iteration_cap (max_iterations (lm_term cfg)))%nat /\
         assigns (pose_env groups) fs a' val' /\ regained groups fs z q C k val e val') /\
  (forall cfg, 0 < radius_initial cfg -> dl_quality_min cfg < 1 ->
     exists q C rho, 0 <= q < 1 /\ 0 <= C /\ 0 < rho /\ forall init val e fuel, assigns (pose_env groups) fs init val -> off_by groups fs z val e -> size fs e <= rho ->
       (iteration_cap (max_iterations (dl_term cfg)) <= fuel)%nat ->
       exists a' k val', dl_solve (pose_env groups) fuel cfg cholmod_solve g init = Some (Ok a') /\ (1 <= k <= iteration_cap (max_iterations (dl_term cfg)))%nat /\
         assigns (pose_env groups) fs a' val' /\ regained groups fs z q C k val e val').
Proof. exact gauge_trust. Qed.
Print Assumptions C104_floating_graphs_converge_trust_region.

Theorem C104_any_accuracy : forall groups fs z v0 g, solved_by groups fs z -> (forall f, In f fs -> f_cls f = 1%nat) -> In v0 (mentioned fs) -> (forall v, In v (mentioned fs) -> joined fs v0 v) -> graph_make (pose_env groups) fs = Ok g ->
  exists rho, 0 < rho /\ forall eps, 0 < eps -> exists least, (1 <= least)%Z /\ forall it unroll init val e, (least <= it)%Z ->
    assigns (pose_env groups) fs init val -> same_layout (as_layout init) (g_layout g) -> off_by groups fs z val e -> size fs e <= rho ->
    exists a' val' e', fixed_solve (pose_env groups) (Z.to_nat it) unroll it cholmod_solve g init = Some (Ok a') /\ assigns (pose_env groups) fs a' val' /\ off_by groups fs z val' e' /\ size fs e' < eps.
Proof. exact gauge_limit. Qed.
Print Assumptions C104_any_accuracy.

Theorem C104_common_motion_changes_nothing : forall groups fs z val val', solved_by groups fs z -> (forall f, In f fs -> f_cls f = 1%nat) -> same_shape_as groups fs val val' ->
  (forall v, In v (mentioned fs) -> value_ok (e_cls (pose_env groups) (v_ty v)) (val v)) ->
  cost_at (pose_env groups) fs val' = cost_at (pose_env groups) fs val /\
  forall u v, In u (mentioned fs) -> In v (mentioned fs) -> v_ty u = v_ty v -> let raw := groups (v_ty u) in
    lg_mul raw (lg_inv raw (params (val' u))) (params (val' v)) = lg_mul raw (lg_inv raw (params (val u))) (params (val v)).
Proof. exact gauge_shape. Qed.
Print Assumptions C104_common_motion_changes_nothing.

Theorem C104_never_rigid : forall groups fs z v0, solved_by groups fs z -> (forall f, In f fs -> f_cls f = 1%nat) -> In v0 (mentioned fs) -> (forall v, In v (mentioned fs) -> joined fs v0 v) -> ~ rigid groups fs z.
Proof. exact gauge_loose. Qed.
Print Assumptions C104_never_rigid.

(* non-vacuity: two poses in space, each measured from the other, one of the measurements with a Huber loss; every displacement is a legal start *)
Example C104_example : solved_by ex_groups ex_floating ex_placed /\ (forall f, In f ex_floating -> f_cls f = 1%nat) /\ In sa (mentioned ex_floating) /\ (forall v, In v (mentioned ex_floating) -> joined ex_floating sa v) /\
  (exists g, graph_make (pose_env ex_groups) ex_floating = Ok g) /\
  forall e, tangent (pose_env ex_groups) ex_floating e -> exists init val, off_by ex_groups ex_floating ex_placed val e /\ assigns (pose_env ex_groups) ex_floating init val /\
    forall g, graph_make (pose_env ex_groups) ex_floating = Ok g -> same_layout (as_layout init) (g_layout g).
Proof. exact ex_gauge. Qed.
