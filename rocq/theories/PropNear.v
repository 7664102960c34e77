(* C85: on linear problems the solvers converge to the minimiser nearest to the start; what no factor measures does not move. *)
From Coq Require Import List Arith Bool Reals ZArith.
From Verif Require Import Num NumR Py Arr MLayout MAssign MNoise MSparse MFactor MGraph MLinear MSolver SpecLayout SpecTree SpecAssign SpecGraph SpecSparse SpecNoise SpecDeriv SpecInv SpecSolver SpecTwin SpecBook SpecLin SpecNear Ex ExG ExS PSolver2 PExLin PExNear.
Import ListNotations.
Local Open Scope R_scope.

Theorem C85_nearest : forall (E : env R) fs g, linear_problem E fs -> well_posed E fs -> graph_make E fs = Ok g ->
  forall init val0, assigns E fs init val0 -> exists z valz cz rz, nearest_minimum E fs g val0 z valz cz rz /\
    forall b valb cb rb, is_minimum E fs g b valb cb rb -> distance2 fs val0 valb = distance2 fs val0 valz + distance2 fs valz valb.
Proof. exact nearest_exists. Qed.
Print Assumptions C85_nearest.

Theorem C85_rate : forall (E : env R) fs g, linear_problem E fs -> well_posed E fs -> graph_make E fs = Ok g ->
  exists mu, 0 < mu /\ forall a val c0 r0 z valz cz rz, assigns E fs a val -> same_layout (as_layout a) (g_layout g) -> compute_cost E g a = Ok (c0, r0) ->
  nearest_minimum E fs g val z valz cz rz -> forall k st,
  (forall cfg, runs (gn_step E cfg cholmod_solve g) k (mkState 0 a c0 r0 false 0) st ->
     exists vk, assigns E fs (s_assign st) vk /\ distance2 fs vk valz <= shrink_rate mu (1 / 100000) ^ (2 * k) * distance2 fs val valz) /\
  (forall cfg, 0 <= lambda_initial cfg -> 1 <= lambda_factor cfg -> 0 <= lambda_min cfg -> lm_quality_min cfg <= 1 ->
     runs (lm_step E cfg cholmod_solve g) k (mkState 0 a c0 r0 false (lambda_initial cfg)) st ->
     exists vk, assigns E fs (s_assign st) vk /\ distance2 fs vk valz <= shrink_rate mu (lambda_initial cfg + 1 / 100000) ^ (2 * k) * distance2 fs val valz) /\
  (forall cfg, 0 < radius_initial cfg -> dl_quality_min cfg <= 1 ->
     runs (dl_step E cfg cholmod_solve g) k (mkState 0 a c0 r0 false (radius_initial cfg)) st ->
     exists vk, assigns E fs (s_assign st) vk /\ distance2 fs vk valz <= distance2 fs val valz /\
       forall K, distance2 fs val valz <= (3 ^ K * radius_initial cfg) * (3 ^ K * radius_initial cfg) ->
         distance2 fs vk valz <= shrink_rate mu (1 / 100000) ^ (2 * (k - K)) * distance2 fs val valz).
Proof. exact near_runs. Qed.
Print Assumptions C85_rate.

Theorem C85_solves : forall (E : env R) fs g, linear_problem E fs -> well_posed E fs -> graph_make E fs = Ok g ->
  exists mu, 0 < mu /\ forall init val0 z valz cz rz, assigns E fs init val0 -> nearest_minimum E fs g val0 z valz cz rz ->
  (forall cfg fuel a', gn_solve E fuel cfg cholmod_solve g init = Some (Ok a') ->
     exists v', assigns E fs a' v' /\ distance2 fs v' valz <= shrink_rate mu (1 / 100000) ^ 2 * distance2 fs val0 valz) /\
  (forall cfg fuel a', 0 <= lambda_initial cfg -> 1 <= lambda_factor cfg -> 0 <= lambda_min cfg -> lm_quality_min cfg <= 1 ->
     lm_solve E fuel cfg cholmod_solve g init = Some (Ok a') ->
     exists v', assigns E fs a' v' /\ distance2 fs v' valz <= shrink_rate mu (lambda_initial cfg + 1 / 100000) ^ 2 * distance2 fs val0 valz) /\
  (forall fuel unroll it, same_layout (as_layout init) (g_layout g) -> (1 <= it)%Z -> (Z.to_nat it <= fuel)%nat ->
     exists a' v', fixed_solve E fuel unroll it cholmod_solve g init = Some (Ok a') /\ assigns E fs a' v' /\
       distance2 fs v' valz <= shrink_rate mu (1 / 100000) ^ (2 * Z.to_nat it) * distance2 fs val0 valz).
Proof. exact near_solves. Qed.
Print Assumptions C85_solves.

Theorem C85_limit : forall (E : env R) fs g, linear_problem E fs -> well_posed E fs -> graph_make E fs = Ok g ->
  forall init val0 z valz cz rz, assigns E fs init val0 -> same_layout (as_layout init) (g_layout g) -> nearest_minimum E fs g val0 z valz cz rz ->
  forall eps, 0 < eps -> exists N, (1 <= N)%Z /\ forall it fuel unroll, (N <= it)%Z -> (Z.to_nat it <= fuel)%nat ->
    exists a' v', fixed_solve E fuel unroll it cholmod_solve g init = Some (Ok a') /\ assigns E fs a' v' /\ distance2 fs v' valz < eps.
Proof. exact near_limit. Qed.
Print Assumptions C85_limit.

Theorem C85_steps : forall (E : env R) fs val old nu, well_posed E fs ->
  (forall v, In v (mentioned fs) -> value_ok (e_cls E (v_ty v)) (val v)) -> (forall v, In v (mentioned fs) -> value_ok (e_cls E (v_ty v)) (old v)) ->
  unseen_at E fs val nu ->
  (forall beta xi, 0 < beta -> damped_step E fs beta val old xi -> inner fs xi nu = 0) /\
  (forall radius xi, dogleg_point E fs radius val old xi -> inner fs xi nu = 0).
Proof. exact free_steps. Qed.
Print Assumptions C85_steps.

Theorem C85_unseen : forall (E : env R) fs g init val nu fuel, well_posed E fs -> graph_make E fs = Ok g -> assigns E fs init val ->
  (forall v, In v (mentioned fs) -> plain_class (e_cls E (v_ty v))) -> unseen E fs nu ->
  (forall cfg, (iteration_cap (max_iterations cfg) <= fuel)%nat ->
     exists a' val', gn_solve E fuel cfg cholmod_solve g init = Some (Ok a') /\ assigns E fs a' val' /\ component fs nu val' = component fs nu val) /\
  (forall unroll it, same_layout (as_layout init) (g_layout g) -> (1 <= it)%Z -> (Z.to_nat it <= fuel)%nat ->
     exists a' val', fixed_solve E fuel unroll it cholmod_solve g init = Some (Ok a') /\ assigns E fs a' val' /\ component fs nu val' = component fs nu val) /\
  (forall cfg, (iteration_cap (max_iterations (lm_term cfg)) <= fuel)%nat -> 0 < lambda_initial cfg -> 0 < lambda_factor cfg -> 0 < lambda_min cfg ->
     exists a' val', lm_solve E fuel cfg cholmod_solve g init = Some (Ok a') /\ assigns E fs a' val' /\ component fs nu val' = component fs nu val) /\
  (forall cfg, (iteration_cap (max_iterations (dl_term cfg)) <= fuel)%nat -> 0 < radius_initial cfg ->
     exists a' val', dl_solve E fuel cfg cholmod_solve g init = Some (Ok a') /\ assigns E fs a' val' /\ component fs nu val' = component fs nu val).
Proof. exact free_solves. Qed.
Print Assumptions C85_unseen.

Theorem C85_cg_refuted : exists (E : env R) fs g init val z valz cz rz nu a' val' c r, linear_problem E fs /\ well_posed E fs /\ graph_make E fs = Ok g /\
  assigns E fs init val /\ nearest_minimum E fs g val z valz cz rz /\ unseen E fs nu /\
  fixed_solve E 1 true 1 (conjugate_gradient_solver (1 / 100000)) g init = Some (Ok a') /\ assigns E fs a' val' /\ is_minimum E fs g a' val' c r /\
  component fs nu val' <> component fs nu val /\ 1 < distance2 fs val' valz.
Proof. exact cg_elsewhere. Qed.
Print Assumptions C85_cg_refuted.

(* non-vacuity: one relative measurement y - x = 2 from (0, 0); the nearest minimiser is (-1, 1), the mean is unseen *)
Example C85_case : linear_problem exLE link_fs /\ well_posed exLE link_fs /\ unseen exLE link_fs (fun _ => [1]) /\
  exists g, graph_make exLE link_fs = Ok g /\ assigns exLE link_fs (scalars [vx; vy] [0; 0]) (two_of 0 0) /\
    same_layout (as_layout (scalars [vx; vy] [0; 0])) (g_layout g) /\
    exists rz, nearest_minimum exLE link_fs g (two_of 0 0) (scalars [vx; vy] [-1; 1]) (two_of (-1) 1) 0 rz.
Proof. exact link_example. Qed.
