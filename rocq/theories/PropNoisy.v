(* Gauss-Newton on pose graphs whose measurements are a little off. *)
From Coq Require Import List Arith Bool Reals ZArith.
From Verif Require Import Num NumR Py Arr MLayout MAssign MNoise MSparse MFactor MGraph MLinear MSolver MLie MPose SpecLayout SpecTree SpecAssign SpecNoise SpecGraph SpecLie SpecPose SpecZero SpecSpatial SpecTwin SpecInv SpecOrder SpecSolver SpecLocal SpecBook SpecNear SpecBasin SpecNoisy Ex ExG ExS PExInv PExBasin PExNoisy.
Import ListNotations.
Local Open Scope R_scope.

Theorem C93_turn : forall groups fs z, solved_by groups fs z -> rigid groups fs z ->
  exists m rho K, 0 < m /\ 0 < rho /\ 0 <= K /\ forall eps fs' beta val e xi val', 0 <= eps <= rho -> noisy groups eps fs fs' -> 0 < beta -> tangent (pose_env groups) fs e -> size fs e <= rho -> moved (pose_env groups) fs z e val ->
    damped_step (pose_env groups) fs' beta val val xi -> moved (pose_env groups) fs' val xi val' ->
    exists e', tangent (pose_env groups) fs e' /\ moved (pose_env groups) fs z e' val' /\ size fs e' <= (beta / (m * m + beta) + K * size fs e) * size fs e + K * eps.
Proof. exact noisy_turns. Qed.
Print Assumptions C93_turn.

Theorem C93_run : forall groups fs z, solved_by groups fs z -> rigid groups fs z ->
  exists q rho K, 0 <= q < 1 /\ 0 < rho /\ 0 <= K /\ forall eps fs' k val e val', 0 <= eps <= rho -> noisy groups eps fs fs' -> tangent (pose_env groups) fs e -> size fs e <= rho -> moved (pose_env groups) fs z e val ->
    turns (gauss_newton_turn (pose_env groups) fs') k val val' ->
    exists e', tangent (pose_env groups) fs e' /\ moved (pose_env groups) fs z e' val' /\ size fs e' <= q ^ k * size fs e + K * eps.
Proof. exact noisy_runs. Qed.
Print Assumptions C93_run.

Theorem C93_solve : forall groups fs z, fs <> [] -> solved_by groups fs z -> rigid groups fs z ->
  exists q rho K, 0 <= q < 1 /\ 0 < rho /\ 0 <= K /\ forall eps fs' g init val e fuel, 0 <= eps <= rho -> noisy groups eps fs fs' -> graph_make (pose_env groups) fs' = Ok g ->
    assigns (pose_env groups) fs' init val -> tangent (pose_env groups) fs e -> moved (pose_env groups) fs z e val -> size fs e <= rho ->
    (forall cfg, (iteration_cap (max_iterations cfg) <= fuel)%nat ->
       exists a' k val' e', gn_solve (pose_env groups) fuel cfg cholmod_solve g init = Some (Ok a') /\ (1 <= k <= iteration_cap (max_iterations cfg))%nat /\
         assigns (pose_env groups) fs' a' val' /\ tangent (pose_env groups) fs e' /\ moved (pose_env groups) fs z e' val' /\ size fs e' <= q ^ k * size fs e + K * eps) /\
    (forall unroll it, same_layout (as_layout init) (g_layout g) -> (1 <= it)%Z -> (Z.to_nat it <= fuel)%nat ->
       exists a' val' e', fixed_solve (pose_env groups) fuel unroll it cholmod_solve g init = Some (Ok a') /\
         assigns (pose_env groups) fs' a' val' /\ tangent (pose_env groups) fs e' /\ moved (pose_env groups) fs z e' val' /\ size fs e' <= q ^ Z.to_nat it * size fs e + K * eps).
Proof. exact noisy_solve. Qed.
Print Assumptions C93_solve.

Theorem C93_limit : forall groups fs z, fs <> [] -> solved_by groups fs z -> rigid groups fs z ->
  exists rho K, 0 < rho /\ 0 <= K /\ forall delta, 0 < delta -> exists least, (1 <= least)%Z /\ forall eps fs' g it unroll init val e, 0 <= eps <= rho -> noisy groups eps fs fs' -> graph_make (pose_env groups) fs' = Ok g -> (least <= it)%Z ->
    assigns (pose_env groups) fs' init val -> same_layout (as_layout init) (g_layout g) -> tangent (pose_env groups) fs e -> moved (pose_env groups) fs z e val -> size fs e <= rho ->
    exists a' val' e', fixed_solve (pose_env groups) (Z.to_nat it) unroll it cholmod_solve g init = Some (Ok a') /\
      assigns (pose_env groups) fs' a' val' /\ tangent (pose_env groups) fs e' /\ moved (pose_env groups) fs z e' val' /\ size fs e' < K * eps + delta.
Proof. exact noisy_limit. Qed.
Print Assumptions C93_limit.

(* non-vacuity: the graph of C87_case with both measurements moved by any tangent vectors *)
Example C93_case : ex_space <> [] /\ solved_by ex_groups ex_space ex_placed /\ rigid ex_groups ex_space ex_placed /\
  (forall eps d1 d2, length d1 = 6%nat -> length d2 = 6%nat -> vnorm d1 <= eps -> vnorm d2 <= eps -> noisy ex_groups eps ex_space (ex_off d1 d2)) /\
  (forall d1 d2, exists g, graph_make (pose_env ex_groups) (ex_off d1 d2) = Ok g /\
    forall e, tangent (pose_env ex_groups) ex_space e -> exists init val, moved (pose_env ex_groups) ex_space ex_placed e val /\ assigns (pose_env ex_groups) (ex_off d1 d2) init val /\ same_layout (as_layout init) (g_layout g)).
Proof. exact ex_noisy. Qed.
