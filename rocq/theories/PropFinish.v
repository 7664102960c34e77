(* Theorem C102: what the stopping tests guarantee close to an exact fit of a nonlinear problem. *)
From Coq Require Import List Arith Bool Reals ZArith.
From Verif Require Import Num NumR Py Arr MLayout MAssign MNoise MSparse MFactor MGraph MLinear MSolver MAuto MDual SpecLayout SpecTree SpecAssign SpecGraph SpecSparse SpecDeriv SpecSolver SpecOrder SpecInv SpecAuto SpecDual SpecLin SpecDescent SpecLocal SpecSmooth SpecTrust SpecFinish Ex ExG ExS PExDual PExSmooth PExFinish.
Import ListNotations.
Local Open Scope R_scope.

Theorem C102_solves : forall (E : env R) fs g z valz rho m K f L, exact_solution E fs g z valz rho m K f L ->
  forall q, q < 1 -> exists sigma M, 0 < sigma /\ 0 < M /\
  (exists th D delta, 0 <= th < 1 /\ 0 <= D /\ 0 < delta /\ forall cfg,
     stops_near E fs valz sigma M th D delta cfg (fun fuel => gn_solve E fuel cfg cholmod_solve g)) /\
  (forall lambda, 0 <= lambda -> exists th D delta, 0 <= th < 1 /\ 0 <= D /\ 0 < delta /\ forall cfg, 0 < lm_quality_min cfg <= q -> 1 <= lambda_factor cfg -> 0 <= lambda_min cfg -> 0 <= lambda_initial cfg <= lambda ->
     stops_near E fs valz sigma M th D delta (lm_term cfg) (fun fuel => lm_solve E fuel cfg cholmod_solve g)) /\
  (forall radius, 0 < radius -> exists th D delta, 0 <= th < 1 /\ 0 <= D /\ 0 < delta /\ forall cfg, 0 < dl_quality_min cfg <= q -> radius <= radius_initial cfg ->
     stops_near E fs valz sigma M th D delta (dl_term cfg) (fun fuel => dl_solve E fuel cfg cholmod_solve g)).
Proof. exact stop_solves. Qed.
Print Assumptions C102_solves.

Theorem C102_accuracy : forall (E : env R) fs g z valz rho m K f L, exact_solution E fs g z valz rho m K f L ->
  forall q, q < 1 -> exists sigma, 0 < sigma /\ forall eps, 0 < eps ->
  (exists delta N, 0 < delta /\ forall cfg, accurate E fs valz sigma eps delta N cfg (fun fuel => gn_solve E fuel cfg cholmod_solve g)) /\
  (forall lambda, 0 <= lambda -> exists delta N, 0 < delta /\ forall cfg, 0 < lm_quality_min cfg <= q -> 1 <= lambda_factor cfg -> 0 <= lambda_min cfg -> 0 <= lambda_initial cfg <= lambda ->
     accurate E fs valz sigma eps delta N (lm_term cfg) (fun fuel => lm_solve E fuel cfg cholmod_solve g)) /\
  (forall radius, 0 < radius -> exists delta N, 0 < delta /\ forall cfg, 0 < dl_quality_min cfg <= q -> radius <= radius_initial cfg ->
     accurate E fs valz sigma eps delta N (dl_term cfg) (fun fuel => dl_solve E fuel cfg cholmod_solve g)).
Proof. exact stop_accuracy. Qed.
Print Assumptions C102_accuracy.

Theorem C102_programs : forall C prog fs g z valz, let E := plain_programs C prog in
  program_problem C prog fs -> graph_make E fs = Ok g -> assigns E fs z valz -> same_layout (as_layout z) (g_layout g) ->
  exact_fit prog fs valz -> determined_at E g z ->
  forall q, q < 1 -> exists sigma, 0 < sigma /\ forall eps, 0 < eps ->
  (exists delta N, 0 < delta /\ forall cfg, accurate E fs valz sigma eps delta N cfg (fun fuel => gn_solve E fuel cfg cholmod_solve g)) /\
  (forall lambda, 0 <= lambda -> exists delta N, 0 < delta /\ forall cfg, 0 < lm_quality_min cfg <= q -> 1 <= lambda_factor cfg -> 0 <= lambda_min cfg -> 0 <= lambda_initial cfg <= lambda ->
     accurate E fs valz sigma eps delta N (lm_term cfg) (fun fuel => lm_solve E fuel cfg cholmod_solve g)) /\
  (forall radius, 0 < radius -> exists delta N, 0 < delta /\ forall cfg, 0 < dl_quality_min cfg <= q -> radius <= radius_initial cfg ->
     accurate E fs valz sigma eps delta N (dl_term cfg) (fun fuel => dl_solve E fuel cfg cholmod_solve g)).
Proof. exact stop_programs. Qed.
Print Assumptions C102_programs.

Theorem C102_cost_refuted : exists cfg : term_cfg R, max_iterations cfg = 100%Z /\ gradient_start cfg = 100%Z /\ parameter_tolerance cfg = 0 /\ cost_tolerance cfg = cost_tolerance (term_default (T := R) 100) /\
  exists (E : env R) fs g z valz rho m K f L, exact_solution E fs g z valz rho m K f L /\
  forall sigma, 0 < sigma -> exists init val a' val', assigns E fs init val /\ 0 < distance fs val valz <= sigma /\
  gn_solve E 1 cfg cholmod_solve g init = Some (Ok a') /\ assigns E fs a' val' /\ 999 / 1000 * distance fs val valz <= distance fs val' valz.
Proof. exact stop_cost_refuted. Qed.
Print Assumptions C102_cost_refuted.

Theorem C102_gradient_refuted : exists cfg : term_cfg R, max_iterations cfg = 100%Z /\ parameter_tolerance cfg = 0 /\ cost_tolerance cfg = 0 /\ gradient_tolerance cfg = 1 / 1000000000 /\
  exists (E : env R) fs g z valz rho m K f L, exact_solution E fs g z valz rho m K f L /\
  forall sigma, 0 < sigma -> exists init val a' val', assigns E fs init val /\ 0 < distance fs val valz <= sigma /\
  gn_solve E 1 cfg cholmod_solve g init = Some (Ok a') /\ assigns E fs a' val' /\ 999 / 1000 * distance fs val valz <= distance fs val' valz.
Proof. exact stop_gradient_refuted. Qed.
Print Assumptions C102_gradient_refuted.

(* non-vacuity: two range measurements of a point in the plane, with default Jacobians, meet the hypothesis *)
Example C102_example : exists g z valz rho m K f L, exact_solution (plain_programs plane range_prog) two_ranges g z valz rho m K f L.
Proof. exact stop_example. Qed.
