(* C101: near an exact fit the trust-region solvers accept every step and converge. *)
From Coq Require Import List Arith Bool Reals ZArith.
From Verif Require Import Num NumR Py Arr MLayout MAssign MSparse MFactor MGraph MLinear MSolver MAuto MDual SpecLayout SpecTree SpecAssign SpecGraph SpecSparse SpecDeriv SpecSolver SpecOrder SpecInv SpecAuto SpecDual SpecLin SpecCgLin SpecDescent SpecLocal SpecSmooth SpecTrust Ex ExG ExS PExPart PExDual PExDescent PExSmooth PExTrust.
Import ListNotations.
Local Open Scope R_scope.

Theorem C101_constants : forall C prog fs g z valz, let E := plain_programs C prog in
  program_problem C prog fs -> graph_make E fs = Ok g -> assigns E fs z valz -> same_layout (as_layout z) (g_layout g) ->
  exact_fit prog fs valz -> determined_at E g z ->
  exists rho m K f L, exact_solution E fs g z valz rho m K f L.
Proof. exact trust_constants. Qed.
Print Assumptions C101_constants.

Theorem C101_runs : forall (E : env R) fs g z valz rho m K f L, exact_solution E fs g z valz rho m K f L ->
  forall q, q < 1 -> exists sigma M, 0 < sigma /\ 0 < M /\
  (forall lambda, 0 <= lambda -> exists th, 0 <= th < 1 /\ forall cfg k s val, 0 < lm_quality_min cfg <= q -> 1 <= lambda_factor cfg -> 0 <= lambda_min cfg -> 0 <= s_extra s <= lambda ->
     at_values E fs g s val -> distance fs val valz <= sigma ->
     exists s', iterate k (lm_step E cfg cholmod_solve g) s = Ok s' /\ converging_run E fs g valz (lm_step E cfg cholmod_solve) (lm_quality_min cfg) M th k s val s') /\
  (forall radius, 0 < radius -> exists th, 0 <= th < 1 /\ forall cfg k s val, 0 < dl_quality_min cfg <= q -> radius <= s_extra s ->
     at_values E fs g s val -> distance fs val valz <= sigma ->
     exists s', iterate k (dl_step E cfg cholmod_solve g) s = Ok s' /\ converging_run E fs g valz (dl_step E cfg cholmod_solve) (dl_quality_min cfg) M th k s val s').
Proof. exact trust_near. Qed.
Print Assumptions C101_runs.

Theorem C101_solves : forall (E : env R) fs g z valz rho m K f L, exact_solution E fs g z valz rho m K f L ->
  forall q, q < 1 -> exists sigma M, 0 < sigma /\ 0 < M /\
  (forall lambda, 0 <= lambda -> exists th, 0 <= th < 1 /\ forall cfg fuel init val a', 0 < lm_quality_min cfg <= q -> 1 <= lambda_factor cfg -> 0 <= lambda_min cfg -> 0 <= lambda_initial cfg <= lambda ->
     assigns E fs init val -> distance fs val valz <= sigma -> lm_solve E fuel cfg cholmod_solve g init = Some (Ok a') ->
     exists k val', (1 <= k)%nat /\ assigns E fs a' val' /\ distance2 fs val' valz <= M * th ^ k * distance2 fs val valz) /\
  (forall radius, 0 < radius -> exists th, 0 <= th < 1 /\ forall cfg fuel init val a', 0 < dl_quality_min cfg <= q -> radius <= radius_initial cfg ->
     assigns E fs init val -> distance fs val valz <= sigma -> dl_solve E fuel cfg cholmod_solve g init = Some (Ok a') ->
     exists k val', (1 <= k)%nat /\ assigns E fs a' val' /\ distance2 fs val' valz <= M * th ^ k * distance2 fs val valz).
Proof. exact trust_solves. Qed.
Print Assumptions C101_solves.

Theorem C101_program_runs : forall C prog fs g z valz, let E := plain_programs C prog in
  program_problem C prog fs -> graph_make E fs = Ok g -> assigns E fs z valz -> same_layout (as_layout z) (g_layout g) ->
  exact_fit prog fs valz -> determined_at E g z ->
  forall q, q < 1 -> exists sigma M, 0 < sigma /\ 0 < M /\
  (forall lambda, 0 <= lambda -> exists th, 0 <= th < 1 /\ forall cfg k s val, 0 < lm_quality_min cfg <= q -> 1 <= lambda_factor cfg -> 0 <= lambda_min cfg -> 0 <= s_extra s <= lambda ->
     at_values E fs g s val -> distance fs val valz <= sigma ->
     exists s', iterate k (lm_step E cfg cholmod_solve g) s = Ok s' /\ converging_run E fs g valz (lm_step E cfg cholmod_solve) (lm_quality_min cfg) M th k s val s') /\
  (forall radius, 0 < radius -> exists th, 0 <= th < 1 /\ forall cfg k s val, 0 < dl_quality_min cfg <= q -> radius <= s_extra s ->
     at_values E fs g s val -> distance fs val valz <= sigma ->
     exists s', iterate k (dl_step E cfg cholmod_solve g) s = Ok s' /\ converging_run E fs g valz (dl_step E cfg cholmod_solve) (dl_quality_min cfg) M th k s val s').
Proof. exact trust_programs. Qed.
Print Assumptions C101_program_runs.

Theorem C101_program_solves : forall C prog fs g z valz, let E := plain_programs C prog in
  program_problem C prog fs -> graph_make E fs = Ok g -> assigns E fs z valz -> same_layout (as_layout z) (g_layout g) ->
  exact_fit prog fs valz -> determined_at E g z ->
  forall q, q < 1 -> exists sigma M, 0 < sigma /\ 0 < M /\
  (forall lambda, 0 <= lambda -> exists th, 0 <= th < 1 /\ forall cfg fuel init val a', 0 < lm_quality_min cfg <= q -> 1 <= lambda_factor cfg -> 0 <= lambda_min cfg -> 0 <= lambda_initial cfg <= lambda ->
     assigns E fs init val -> distance fs val valz <= sigma -> lm_solve E fuel cfg cholmod_solve g init = Some (Ok a') ->
     exists k val', (1 <= k)%nat /\ assigns E fs a' val' /\ distance2 fs val' valz <= M * th ^ k * distance2 fs val valz) /\
  (forall radius, 0 < radius -> exists th, 0 <= th < 1 /\ forall cfg fuel init val a', 0 < dl_quality_min cfg <= q -> radius <= radius_initial cfg ->
     assigns E fs init val -> distance fs val valz <= sigma -> dl_solve E fuel cfg cholmod_solve g init = Some (Ok a') ->
     exists k val', (1 <= k)%nat /\ assigns E fs a' val' /\ distance2 fs val' valz <= M * th ^ k * distance2 fs val valz).
Proof. exact trust_program_solves. Qed.
Print Assumptions C101_program_solves.

Theorem C101_without_exact_fit_refuted : exists (E : env R) fs g z valz cz rz, plain_problem E fs /\ well_posed E fs /\ graph_make E fs = Ok g /\ assigns E fs z valz /\ same_layout (as_layout z) (g_layout g) /\
  compute_cost E g z = Ok (cz, rz) /\
  (forall b val c r, assigns E fs b val -> same_layout (as_layout b) (g_layout g) -> compute_cost E g b = Ok (c, r) -> cz + 11 * distance2 fs val valz <= c) /\
  forall sigma, 0 < sigma -> exists val, 0 < distance fs val valz <= sigma /\
    (exists s s', at_values E fs g s val /\ s_extra s = lambda_initial (lm_default (T := R) 100) /\ lm_step E (lm_default 100) cholmod_solve g s = Ok s' /\ s_assign s' = s_assign s) /\
    (exists s s', at_values E fs g s val /\ s_extra s = radius_initial (dl_default (T := R) 100) /\ dl_step E (dl_default 100) cholmod_solve g s = Ok s' /\ s_assign s' = s_assign s).
Proof. exact trust_refuted. Qed.
Print Assumptions C101_without_exact_fit_refuted.

(* non-vacuity: a point located by its distances to two known points *)
Example C101_example : exists g z valz rho m K f L, exact_solution (plain_programs plane range_prog) two_ranges g z valz rho m K f L.
Proof. exact trust_example. Qed.

(* non-vacuity: the default settings qualify *)
Example C101_defaults : let l := lm_default (T := R) 100 in let d := dl_default (T := R) 100 in
  0 < lm_quality_min l <= 1 / 2 /\ 1 <= lambda_factor l /\ 0 <= lambda_min l /\ 0 <= lambda_initial l /\ 0 < dl_quality_min d <= 1 / 2 /\ 0 < radius_initial d.
Proof. exact trust_defaults. Qed.
