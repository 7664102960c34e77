(* Theorem C98: on linear residuals under Huber noise Gauss-Newton converges from every start to the least loss of C71, while the reported cost may rise. *)
From Coq Require Import List Arith Bool Reals ZArith.
From Verif Require Import Num NumR Py Arr MLayout MAssign MNoise MSparse MFactor MGraph MLinear MSolver SpecLayout SpecTree SpecAssign SpecGraph SpecSparse SpecDeriv SpecNoise SpecSolver SpecOrder SpecInv SpecLin SpecCgLin SpecLoss SpecTrCg SpecLocal SpecRobust Ex ExG ExS PExRobust.
Import ListNotations.
Local Open Scope R_scope.

Theorem C98_iterations : forall (E : env R) fs g, robust_problem E fs -> well_posed E fs -> graph_make E fs = Ok g ->
  exists sigma F, 0 < sigma <= F /\ forall level, exists mu, 0 < mu <= 1 /\
  forall lin q step, solver_share E fs g sigma F lin q -> gauss_newton_iteration E g lin step ->
  0 < mu * q <= 1 /\
  forall k s val s', at_values E fs g s val -> total_loss E fs val <= level -> iterate k step s = Ok s' ->
  exists val', at_values E fs g s' val' /\ total_loss E fs val' <= total_loss E fs val /\
   forall z valz, assigns E fs z valz ->
     total_loss E fs val' - total_loss E fs valz <= (1 - mu * q) ^ k * (total_loss E fs val - total_loss E fs valz).
Proof. exact robust_steps. Qed.
Print Assumptions C98_iterations.

Theorem C98_solves : forall (E : env R) fs g, robust_problem E fs -> well_posed E fs -> graph_make E fs = Ok g ->
  exists sigma F, 0 < sigma <= F /\ forall level, exists mu, 0 < mu <= 1 /\
  forall lin q, solver_share E fs g sigma F lin q -> 0 < mu * q <= 1 /\
  forall init val, assigns E fs init val -> total_loss E fs val <= level ->
  (forall cfg fuel, (iteration_cap (max_iterations cfg) <= fuel)%nat ->
     exists a' k val', gn_solve E fuel cfg lin g init = Some (Ok a') /\ (1 <= k <= iteration_cap (max_iterations cfg))%nat /\ assigns E fs a' val' /\
       total_loss E fs val' <= total_loss E fs val /\
       forall z valz, assigns E fs z valz ->
         total_loss E fs val' - total_loss E fs valz <= (1 - mu * q) ^ k * (total_loss E fs val - total_loss E fs valz)) /\
  (forall fuel unroll it, same_layout (as_layout init) (g_layout g) -> (1 <= it)%Z -> (Z.to_nat it <= fuel)%nat ->
     exists a' val', fixed_solve E fuel unroll it lin g init = Some (Ok a') /\ assigns E fs a' val' /\
       total_loss E fs val' <= total_loss E fs val /\
       forall z valz, assigns E fs z valz ->
         total_loss E fs val' - total_loss E fs valz <= (1 - mu * q) ^ (Z.to_nat it) * (total_loss E fs val - total_loss E fs valz)).
Proof. exact robust_solves. Qed.
Print Assumptions C98_solves.

Theorem C98_rest : forall (E : env R) fs g s val gr, robust_problem E fs -> well_posed E fs -> graph_make E fs = Ok g -> at_values E fs g s val -> half_gradient E g s gr ->
  (gr = vzero (l_dim (g_local_layout g)) <-> least_loss E fs val).
Proof. exact robust_rest. Qed.
Print Assumptions C98_rest.

(* non-vacuity: a problem with Huber noise meeting the hypotheses *)
Example C98_example : exists (E : env R) fs g init val, robust_problem E fs /\ well_posed E fs /\ graph_make E fs = Ok g /\ every_column E fs g /\
  assigns E fs init val /\ same_layout (as_layout init) (g_layout g) /\ (exists f w d, In f fs /\ f_noise f = Huber w d) /\
  exists s gr, at_values E fs g s val /\ half_gradient E g s gr /\ gr <> vzero (l_dim (g_local_layout g)).
Proof. exact robust_example. Qed.

Theorem C98_cost_falls_refuted : exists (E : env R) fs g init val c r a' c' r', robust_problem E fs /\ well_posed E fs /\ graph_make E fs = Ok g /\
  assigns E fs init val /\ same_layout (as_layout init) (g_layout g) /\ compute_cost E g init = Ok (c, r) /\
  (forall fuel unroll, (1 <= fuel)%nat -> fixed_solve E fuel unroll 1 cholmod_solve g init = Some (Ok a')) /\ compute_cost E g a' = Ok (c', r') /\ c < c'.
Proof. exact cost_rises. Qed.
Print Assumptions C98_cost_falls_refuted.
