(* Theorem C97: what the stopping tests guarantee on linear problems. *)
From Coq Require Import List Arith Bool Reals ZArith.
From Verif Require Import Num NumR Py Arr MLayout MAssign MNoise MSparse MFactor MGraph MLinear MSolver SpecLayout SpecTree SpecAssign SpecGraph SpecSparse SpecDeriv SpecSolver SpecOrder SpecInv SpecLin SpecCgLin SpecTrCg SpecHalt Ex ExG ExS PExSym PExLin PExNear PExHalt.
Import ListNotations.
Local Open Scope R_scope.

Theorem C97_solves : forall (E : env R) fs g, linear_problem E fs -> well_posed E fs -> graph_make E fs = Ok g -> every_column E fs g ->
  exists sigma F, 0 < sigma <= F /\ forall lin q, linear_method sigma F lin q -> (forall l, 0 <= l -> 0 < q l <= 1) /\
  forall init val c0 r0 z valz cz rz, assigns E fs init val -> compute_cost E g init = Ok (c0, r0) -> is_minimum E fs g z valz cz rz ->
  (forall cfg fuel, (iteration_cap (max_iterations cfg) <= fuel)%nat -> 0 <= parameter_tolerance cfg < 1 ->
     exists a' val' c r k, gn_solve E fuel cfg lin g init = Some (Ok a') /\ assigns E fs a' val' /\ compute_cost E g a' = Ok (c, r) /\
       (1 <= k <= iteration_cap (max_iterations cfg))%nat /\ stop_reason cfg sigma (q 0) cz c (size2 fs val') k) /\
  (forall cfg fuel, (iteration_cap (max_iterations (lm_term cfg)) <= fuel)%nat -> 0 <= parameter_tolerance (lm_term cfg) < 1 ->
     0 <= lambda_initial cfg -> 1 <= lambda_factor cfg -> 0 <= lambda_min cfg -> lm_quality_min cfg <= 1 ->
     exists a' val' c r k, lm_solve E fuel cfg lin g init = Some (Ok a') /\ assigns E fs a' val' /\ compute_cost E g a' = Ok (c, r) /\
       (1 <= k <= iteration_cap (max_iterations (lm_term cfg)))%nat /\ stop_reason (lm_term cfg) sigma (q (lambda_initial cfg)) cz c (size2 fs val') k) /\
  (forall cfg fuel theta, (iteration_cap (max_iterations (dl_term cfg)) <= fuel)%nat -> 0 <= parameter_tolerance (dl_term cfg) < 1 ->
     0 < radius_initial cfg -> dl_quality_min cfg <= 1 -> 0 < theta <= q 0 -> theta * theta * (c0 - cz) <= sigma * (radius_initial cfg * radius_initial cfg) ->
     exists a' val' c r k, dl_solve E fuel cfg lin g init = Some (Ok a') /\ assigns E fs a' val' /\ compute_cost E g a' = Ok (c, r) /\
       (1 <= k <= iteration_cap (max_iterations (dl_term cfg)))%nat /\ stop_reason (dl_term cfg) sigma theta cz c (size2 fs val') k).
Proof. exact halt_solves. Qed.
Print Assumptions C97_solves.

Theorem C97_accuracy : forall (E : env R) fs g, linear_problem E fs -> well_posed E fs -> graph_make E fs = Ok g -> every_column E fs g ->
  forall lin, lin = cholmod_solve \/ (exists tol t, lin = cg_solve tol /\ (forall i, Rabs (tol i) <= t) /\ t < 1) ->
  forall lambda eps, 0 <= lambda -> 0 < eps -> exists delta, 0 < delta /\
  forall init val c0 r0 z valz cz rz, assigns E fs init val -> compute_cost E g init = Ok (c0, r0) -> is_minimum E fs g z valz cz rz ->
  (forall cfg fuel, (iteration_cap (max_iterations cfg) <= fuel)%nat -> parameter_tolerance cfg = 0 -> (max_iterations cfg <= gradient_start cfg)%Z -> 0 <= cost_tolerance cfg <= delta ->
     exists a' val' c r k, gn_solve E fuel cfg lin g init = Some (Ok a') /\ assigns E fs a' val' /\ compute_cost E g a' = Ok (c, r) /\
       (1 <= k <= iteration_cap (max_iterations cfg))%nat /\ ((max_iterations cfg <= Z.of_nat k)%Z \/ c <= (1 + eps) * cz)) /\
  (forall cfg fuel, (iteration_cap (max_iterations (lm_term cfg)) <= fuel)%nat -> parameter_tolerance (lm_term cfg) = 0 -> (max_iterations (lm_term cfg) <= gradient_start (lm_term cfg))%Z ->
     0 <= cost_tolerance (lm_term cfg) <= delta -> 0 <= lambda_initial cfg <= lambda -> 1 <= lambda_factor cfg -> 0 <= lambda_min cfg -> lm_quality_min cfg <= 1 ->
     exists a' val' c r k, lm_solve E fuel cfg lin g init = Some (Ok a') /\ assigns E fs a' val' /\ compute_cost E g a' = Ok (c, r) /\
       (1 <= k <= iteration_cap (max_iterations (lm_term cfg)))%nat /\ ((max_iterations (lm_term cfg) <= Z.of_nat k)%Z \/ c <= (1 + eps) * cz)).
Proof. exact halt_accuracy. Qed.
Print Assumptions C97_accuracy.

Theorem C97_default_refuted : exists (E : env R) fs g init val c0 r0 z valz rz, linear_problem E fs /\ well_posed E fs /\ graph_make E fs = Ok g /\ every_column E fs g /\
  assigns E fs init val /\ compute_cost E g init = Ok (c0, r0) /\ 0 < c0 /\ is_minimum E fs g z valz 0 rz /\
  (exists a' c r, gn_solve E 1 (term_default 100) cholmod_solve g init = Some (Ok a') /\ compute_cost E g a' = Ok (c, r) /\ 999 / 1000 * c0 < c < c0) /\
  (exists a' c r, lm_solve E 1 (lm_default 100) cholmod_solve g init = Some (Ok a') /\ compute_cost E g a' = Ok (c, r) /\ 999 / 1000 * c0 < c < c0) /\
  (exists a' c r, dl_solve E 1 (dl_default 100) cholmod_solve g init = Some (Ok a') /\ compute_cost E g a' = Ok (c, r) /\ 999 / 1000 * c0 < c < c0).
Proof. exact default_stops. Qed.
Print Assumptions C97_default_refuted.

Theorem C97_gradient_refuted : exists (E : env R) fs g init val c0 r0 z valz rz cfg a' c r, linear_problem E fs /\ well_posed E fs /\ graph_make E fs = Ok g /\ every_column E fs g /\
  assigns E fs init val /\ compute_cost E g init = Ok (c0, r0) /\ is_minimum E fs g z valz 0 rz /\
  cost_tolerance (lm_term cfg) = 0 /\ parameter_tolerance (lm_term cfg) = 0 /\ max_iterations (lm_term cfg) = 100%Z /\
  lm_solve E 1 cfg cholmod_solve g init = Some (Ok a') /\ compute_cost E g a' = Ok (c, r) /\ 99 / 100 * c0 < c.
Proof. exact gradient_stops. Qed.
Print Assumptions C97_gradient_refuted.

(* non-vacuity: non-vacuity: the chain of C95 meets the hypotheses with the default settings *)
Example C97_example : exists g z valz cz rz c0 r0, linear_problem exLE chain_fs /\ well_posed exLE chain_fs /\ graph_make exLE chain_fs = Ok g /\ every_column exLE chain_fs g /\
  assigns exLE chain_fs (scalars [vx; vy] [0; 0]) (PExNear.two_of 0 0) /\ compute_cost exLE g (scalars [vx; vy] [0; 0]) = Ok (c0, r0) /\ c0 = 66 /\ is_minimum exLE chain_fs g z valz cz rz /\ cz = 64 / 9 /\
  0 <= parameter_tolerance (lm_term (lm_default (T := R) 100)) < 1 /\ 0 <= lambda_initial (lm_default (T := R) 100) /\ 1 <= lambda_factor (lm_default (T := R) 100) /\
  0 <= lambda_min (lm_default (T := R) 100) /\ lm_quality_min (lm_default (T := R) 100) <= 1 /\ 0 < radius_initial (dl_default (T := R) 100) /\ dl_quality_min (dl_default (T := R) 100) <= 1.
Proof. exact halt_example. Qed.
