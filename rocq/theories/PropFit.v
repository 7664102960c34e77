(* Theorem C99: under Huber noise on linear residuals the values of least loss exist, fit the measurements in one way, and Gauss-Newton's values converge to them. *)
From Coq Require Import List Arith Bool Reals ZArith.
From Verif Require Import Num NumR Py Arr MLayout MAssign MNoise MSparse MFactor MGraph MLinear MSolver SpecLayout SpecTree SpecAssign SpecGraph SpecSparse SpecDeriv SpecNoise SpecSolver SpecOrder SpecInv SpecLin SpecCgLin SpecLoss SpecTrCg SpecLocal SpecRobust Ex ExG ExS PExFit.
Import ListNotations.
Local Open Scope R_scope.

Theorem C99_exists : forall (E : env R) fs g, robust_problem E fs -> well_posed E fs -> graph_make E fs = Ok g ->
  exists z valz, assigns E fs z valz /\ same_layout (as_layout z) (g_layout g) /\ least_loss E fs valz.
Proof. exact fit_exists. Qed.
Print Assumptions C99_exists.

Theorem C99_one_fit : forall (E : env R) fs z valz y valy, robust_problem E fs -> well_posed E fs ->
  assigns E fs z valz -> assigns E fs y valy -> least_loss E fs valz -> least_loss E fs valy ->
  forall f, In f fs -> whitened_at E valz f = whitened_at E valy f.
Proof. exact fit_one. Qed.
Print Assumptions C99_one_fit.

Theorem C99_iterations : forall (E : env R) fs g, robust_problem E fs -> well_posed E fs -> graph_make E fs = Ok g ->
  forall level, exists q K, 0 <= q < 1 /\ 0 <= K /\
  forall step, gauss_newton_iteration E g cholmod_solve step -> forall s val, at_values E fs g s val -> total_loss E fs val <= level ->
  exists z valz, assigns E fs z valz /\ least_loss E fs valz /\
    forall k s', iterate k step s = Ok s' -> exists val', at_values E fs g s' val' /\ distance fs val' valz <= K * sqrt (total_loss E fs val - total_loss E fs valz) * q ^ k.
Proof. exact fit_iterations. Qed.
Print Assumptions C99_iterations.

Theorem C99_solves : forall (E : env R) fs g, robust_problem E fs -> well_posed E fs -> graph_make E fs = Ok g ->
  forall level, exists q K, 0 <= q < 1 /\ 0 <= K /\
  forall init val, assigns E fs init val -> total_loss E fs val <= level ->
  (forall cfg fuel, (iteration_cap (max_iterations cfg) <= fuel)%nat ->
     exists a' k val' z valz, gn_solve E fuel cfg cholmod_solve g init = Some (Ok a') /\ (1 <= k <= iteration_cap (max_iterations cfg))%nat /\ assigns E fs a' val' /\
       assigns E fs z valz /\ least_loss E fs valz /\ distance fs val' valz <= K * sqrt (total_loss E fs val - total_loss E fs valz) * q ^ k) /\
  (same_layout (as_layout init) (g_layout g) -> forall it fuel unroll, (1 <= it)%Z -> (Z.to_nat it <= fuel)%nat ->
     exists a' val' z valz, fixed_solve E fuel unroll it cholmod_solve g init = Some (Ok a') /\ assigns E fs a' val' /\
       assigns E fs z valz /\ least_loss E fs valz /\ distance fs val' valz <= K * sqrt (total_loss E fs val - total_loss E fs valz) * q ^ Z.to_nat it).
Proof. exact fit_solves. Qed.
Print Assumptions C99_solves.

Theorem C99_full_rank : forall (E : env R) fs g s0 v0 A0 sigma0, robust_problem E fs -> well_posed E fs -> graph_make E fs = Ok g ->
  at_values E fs g s0 v0 -> compute_whitened_residual_jacobian E g (s_assign s0) (s_res s0) = Ok A0 -> 0 < sigma0 -> SpecCgLin.bounded_below sigma0 A0 ->
  (forall z valz y valy, assigns E fs z valz -> assigns E fs y valy -> least_loss E fs valz -> least_loss E fs valy -> distance fs valy valz = 0) /\
  forall level, exists K, 0 <= K /\ forall z valz y valy, assigns E fs z valz -> assigns E fs y valy -> least_loss E fs valz -> total_loss E fs valy <= level ->
    distance2 fs valy valz <= K * (total_loss E fs valy - total_loss E fs valz).
Proof. exact fit_unique. Qed.
Print Assumptions C99_full_rank.

(* non-vacuity: non-vacuity: two Huber factors, full rank, least loss positive *)
Example C99_example : exists (E : env R) fs g s0 v0 A0 sigma0, robust_problem E fs /\ well_posed E fs /\ graph_make E fs = Ok g /\
  at_values E fs g s0 v0 /\ compute_whitened_residual_jacobian E g (s_assign s0) (s_res s0) = Ok A0 /\ 0 < sigma0 /\ SpecCgLin.bounded_below sigma0 A0 /\
  (forall f, In f fs -> exists w d, f_noise f = Huber w d) /\ least_loss E fs v0 /\ 0 < total_loss E fs v0.
Proof. exact fit_example. Qed.

Theorem C99_least_cost_refuted : exists (E : env R) fs g z valz y valy c c' r r', robust_problem E fs /\ well_posed E fs /\ graph_make E fs = Ok g /\
  assigns E fs z valz /\ assigns E fs y valy /\ least_loss E fs valz /\
  (forall z' valz', assigns E fs z' valz' -> least_loss E fs valz' -> distance fs valz' valz = 0) /\
  compute_cost E g z = Ok (c, r) /\ compute_cost E g y = Ok (c', r') /\ c' < c.
Proof. exact fit_not_cost. Qed.
Print Assumptions C99_least_cost_refuted.

Theorem C99_uniform_refuted : exists (E : env R) fs g s0 v0 A0, robust_problem E fs /\ well_posed E fs /\ graph_make E fs = Ok g /\
  at_values E fs g s0 v0 /\ compute_whitened_residual_jacobian E g (s_assign s0) (s_res s0) = Ok A0 /\ SpecCgLin.bounded_below 1 A0 /\
  least_loss E fs v0 /\ forall K, exists y valy, assigns E fs y valy /\ K * (total_loss E fs valy - total_loss E fs v0) < distance2 fs valy v0.
Proof. exact fit_not_uniform. Qed.
Print Assumptions C99_uniform_refuted.
