(* Local convergence of the nonlinear solvers on pose graphs. *)
From Coq Require Import List Arith Bool Reals ZArith.
From Verif Require Import Num NumR Py Arr MLayout MAssign MNoise MSparse MFactor MGraph MLinear MSolver MLie MPose SpecLayout SpecTree SpecAssign SpecNoise SpecGraph SpecLie SpecPose SpecZero SpecSpatial SpecTwin SpecInv SpecOrder SpecSolver SpecLocal SpecBook SpecNear SpecBasin Ex ExG ExS PExInv PExBasin.
Import ListNotations.
Local Open Scope R_scope.

Theorem C87_turn : forall groups fs z, solved_by groups fs z -> rigid groups fs z ->
  exists m rho K, 0 < m /\ 0 < rho /\ 0 <= K /\ forall beta val e xi val', 0 < beta -> tangent (pose_env groups) fs e -> size fs e <= rho -> moved (pose_env groups) fs z e val ->
    damped_step (pose_env groups) fs beta val val xi -> moved (pose_env groups) fs val xi val' ->
    exists e', tangent (pose_env groups) fs e' /\ moved (pose_env groups) fs z e' val' /\ size fs e' <= (beta / (m * m + beta) + K * size fs e) * size fs e.
Proof. exact basin_turns. Qed.
Print Assumptions C87_turn.

Theorem C87_run : forall groups fs z, solved_by groups fs z -> rigid groups fs z ->
  exists q rho, 0 <= q < 1 /\ 0 < rho /\ forall k val e val', tangent (pose_env groups) fs e -> size fs e <= rho -> moved (pose_env groups) fs z e val ->
    turns (gauss_newton_turn (pose_env groups) fs) k val val' ->
    exists e', tangent (pose_env groups) fs e' /\ moved (pose_env groups) fs z e' val' /\ size fs e' <= q ^ k * size fs e.
Proof. exact basin_runs. Qed.
Print Assumptions C87_run.

Theorem C87_solve : forall groups fs z g, fs <> [] -> solved_by groups fs z -> rigid groups fs z -> graph_make (pose_env groups) fs = Ok g ->
  exists q rho, 0 <= q < 1 /\ 0 < rho /\ forall init val e fuel, assigns (pose_env groups) fs init val -> tangent (pose_env groups) fs e -> moved (pose_env groups) fs z e val -> size fs e <= rho ->
    (forall cfg, (iteration_cap (max_iterations cfg) <= fuel)%nat ->
       exists a' k val' e', gn_solve (pose_env groups) fuel cfg cholmod_solve g init = Some (Ok a') /\ (1 <= k <= iteration_cap (max_iterations cfg))%nat /\
         assigns (pose_env groups) fs a' val' /\ tangent (pose_env groups) fs e' /\ moved (pose_env groups) fs z e' val' /\ size fs e' <= q ^ k * size fs e) /\
    (forall unroll it, same_layout (as_layout init) (g_layout g) -> (1 <= it)%Z -> (Z.to_nat it <= fuel)%nat ->
       exists a' val' e', fixed_solve (pose_env groups) fuel unroll it cholmod_solve g init = Some (Ok a') /\
         assigns (pose_env groups) fs a' val' /\ tangent (pose_env groups) fs e' /\ moved (pose_env groups) fs z e' val' /\ size fs e' <= q ^ Z.to_nat it * size fs e).
Proof. exact basin_solve. Qed.
Print Assumptions C87_solve.

Theorem C87_limit : forall groups fs z g, fs <> [] -> solved_by groups fs z -> rigid groups fs z -> graph_make (pose_env groups) fs = Ok g ->
  exists rho, 0 < rho /\ forall eps, 0 < eps -> exists least, (1 <= least)%Z /\ forall it unroll init val e, (least <= it)%Z ->
    assigns (pose_env groups) fs init val -> same_layout (as_layout init) (g_layout g) -> tangent (pose_env groups) fs e -> moved (pose_env groups) fs z e val -> size fs e <= rho ->
    exists a' val' e', fixed_solve (pose_env groups) (Z.to_nat it) unroll it cholmod_solve g init = Some (Ok a') /\
      assigns (pose_env groups) fs a' val' /\ tangent (pose_env groups) fs e' /\ moved (pose_env groups) fs z e' val' /\ size fs e' < eps.
Proof. exact basin_limit. Qed.
Print Assumptions C87_limit.

Theorem C87_tied : forall groups fs z, solved_by groups fs z -> (forall v, In v (mentioned fs) -> tied fs v) -> rigid groups fs z.
Proof. exact basin_tied. Qed.
Print Assumptions C87_tied.

Theorem C87_gain : forall groups fs z, solved_by groups fs z -> rigid groups fs z -> forall b0 b1, 0 < b0 -> b0 <= b1 ->
  exists rho C, 0 < rho /\ 0 <= C /\ forall beta val e xi val', b0 <= beta <= b1 -> tangent (pose_env groups) fs e -> 0 < size fs e <= rho -> moved (pose_env groups) fs z e val ->
    damped_step (pose_env groups) fs beta val val xi -> moved (pose_env groups) fs val xi val' -> Rabs (quality (pose_env groups) fs val val xi val' - 1) <= C * size fs e.
Proof. exact basin_gain. Qed.
Print Assumptions C87_gain.

Theorem C87_trust_region : forall groups fs z g, fs <> [] -> solved_by groups fs z -> rigid groups fs z -> graph_make (pose_env groups) fs = Ok g ->
  (forall cfg, 0 < lambda_initial cfg -> 1 <= lambda_factor cfg -> 0 < lambda_min cfg -> lm_quality_min cfg < 1 ->
     exists q rho, 0 <= q < 1 /\ 0 < rho /\ forall init val e fuel, assigns (pose_env groups) fs init val -> tangent (pose_env groups) fs e -> moved (pose_env groups) fs z e val -> size fs e <= rho ->
       (iteration_cap (max_iterations (lm_term cfg)) <= fuel)%nat ->
       exists a' k val' e', lm_solve (pose_env groups) fuel cfg cholmod_solve g init = Some (Ok a') /\ (1 <= k <= iteration_cap (max_iterations (lm_term cfg)))%nat /\
         assigns (pose_env groups) fs a' val' /\ tangent (pose_env groups) fs e' /\ moved (pose_env groups) fs z e' val' /\ size fs e' <= q ^ k * size fs e) /\
  (forall cfg, 0 < radius_initial cfg -> dl_quality_min cfg < 1 ->
     exists q rho, 0 <= q < 1 /\ 0 < rho /\ forall init val e fuel, assigns (pose_env groups) fs init val -> tangent (pose_env groups) fs e -> moved (pose_env groups) fs z e val -> size fs e <= rho ->
       (iteration_cap (max_iterations (dl_term cfg)) <= fuel)%nat ->
       exists a' k val' e', dl_solve (pose_env groups) fuel cfg cholmod_solve g init = Some (Ok a') /\ (1 <= k <= iteration_cap (max_iterations (dl_term cfg)))%nat /\
         assigns (pose_env groups) fs a' val' /\ tangent (pose_env groups) fs e' /\ moved (pose_env groups) fs z e' val' /\ size fs e' <= q ^ k * size fs e).
Proof. exact basin_trust. Qed.
Print Assumptions C87_trust_region.

(* non-vacuity: two poses in space, a prior and a relative measurement under a Huber loss *)
Example C87_case : solved_by ex_groups ex_space ex_placed /\ (forall v, In v (mentioned ex_space) -> tied ex_space v) /\ rigid ex_groups ex_space ex_placed /\
  (exists g, graph_make (pose_env ex_groups) ex_space = Ok g) /\
  forall e, tangent (pose_env ex_groups) ex_space e -> exists init val, moved (pose_env ex_groups) ex_space ex_placed e val /\ assigns (pose_env ex_groups) ex_space init val /\
    forall g, graph_make (pose_env ex_groups) ex_space = Ok g -> same_layout (as_layout init) (g_layout g).
Proof. exact ex_basin. Qed.

(* non-vacuity: the default configurations of the code *)
Example C87_defaults : forall n, (0 < lambda_initial (lm_default n) /\ 1 <= lambda_factor (lm_default n) /\ 0 < lambda_min (lm_default n) /\ lm_quality_min (lm_default n) < 1) /\
  0 < radius_initial (dl_default n) /\ dl_quality_min (dl_default n) < 1.
Proof. exact ex_defaults. Qed.
