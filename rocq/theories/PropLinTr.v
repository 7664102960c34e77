(* Theorem C95: every solver with conjugate gradients converges geometrically on linear problems. *)
From Coq Require Import List Arith Bool Reals ZArith.
From Verif Require Import Num NumR Py Arr MLayout MAssign MNoise MSparse MFactor MGraph MLinear MSolver SpecLayout SpecTree SpecAssign SpecGraph SpecSparse SpecDeriv SpecSolver SpecOrder SpecInv SpecLin SpecCgLin SpecTrCg Ex ExG ExS PExSym PExLin PExNear PExLinTr.
Import ListNotations.
Local Open Scope R_scope.

Theorem C95_rates : forall (E : env R) fs g, linear_problem E fs -> well_posed E fs -> graph_make E fs = Ok g -> every_column E fs g ->
  exists sigma F, 0 < sigma <= F /\ forall (tol : nat -> R) t a val c0 r0 z valz cz rz, (forall i, Rabs (tol i) <= t) -> t < 1 ->
  assigns E fs a val -> same_layout (as_layout a) (g_layout g) -> compute_cost E g a = Ok (c0, r0) -> is_minimum E fs g z valz cz rz -> forall k st,
  (forall step, (exists cfg, step = gn_step E cfg (cg_solve tol) g) \/ (exists it, step = fixed_step E it (cg_solve tol) g) ->
     runs step k (mkState 0 a c0 r0 false 0) st ->
     current E g st /\ s_cost st - cz <= (1 - share sigma F t 0) ^ k * (c0 - cz)) /\
  (forall cfg, 0 <= lambda_initial cfg -> 1 <= lambda_factor cfg -> 0 <= lambda_min cfg -> lm_quality_min cfg <= 1 ->
     runs (lm_step E cfg (cg_solve tol) g) k (mkState 0 a c0 r0 false (lambda_initial cfg)) st ->
     current E g st /\ s_cost st - cz <= (1 - share sigma F t (lambda_initial cfg)) ^ k * (c0 - cz) /\
     (s_cost st = cz \/ s_extra st = lambda_initial cfg / lambda_factor cfg ^ k)) /\
  (forall cfg theta, 0 < radius_initial cfg -> dl_quality_min cfg <= 1 ->
     0 <= theta <= share sigma F t 0 -> theta * theta * (c0 - cz) <= sigma * (radius_initial cfg * radius_initial cfg) ->
     runs (dl_step E cfg (cg_solve tol) g) k (mkState 0 a c0 r0 false (radius_initial cfg)) st ->
     current E g st /\ s_cost st - cz <= (1 - theta) ^ k * (c0 - cz) /\ (s_cost st = cz \/ radius_initial cfg <= s_extra st)).
Proof. exact cg_rates. Qed.
Print Assumptions C95_rates.

Theorem C95_solves : forall (E : env R) fs g, linear_problem E fs -> well_posed E fs -> graph_make E fs = Ok g -> every_column E fs g ->
  exists sigma F, 0 < sigma <= F /\ forall (tol : nat -> R) t init val c0 r0 z valz cz rz, (forall i, Rabs (tol i) <= t) -> t < 1 ->
  assigns E fs init val -> compute_cost E g init = Ok (c0, r0) -> is_minimum E fs g z valz cz rz ->
  (forall cfg fuel, (iteration_cap (max_iterations cfg) <= fuel)%nat ->
     exists a' val' c r k, gn_solve E fuel cfg (cg_solve tol) g init = Some (Ok a') /\ assigns E fs a' val' /\ compute_cost E g a' = Ok (c, r) /\
       (1 <= k <= iteration_cap (max_iterations cfg))%nat /\ c - cz <= (1 - share sigma F t 0) ^ k * (c0 - cz)) /\
  (forall cfg fuel, (iteration_cap (max_iterations (lm_term cfg)) <= fuel)%nat ->
     0 <= lambda_initial cfg -> 1 <= lambda_factor cfg -> 0 <= lambda_min cfg -> lm_quality_min cfg <= 1 ->
     exists a' val' c r k, lm_solve E fuel cfg (cg_solve tol) g init = Some (Ok a') /\ assigns E fs a' val' /\ compute_cost E g a' = Ok (c, r) /\
       (1 <= k <= iteration_cap (max_iterations (lm_term cfg)))%nat /\ c - cz <= (1 - share sigma F t (lambda_initial cfg)) ^ k * (c0 - cz)) /\
  (forall cfg fuel theta, (iteration_cap (max_iterations (dl_term cfg)) <= fuel)%nat -> 0 < radius_initial cfg -> dl_quality_min cfg <= 1 ->
     0 <= theta <= share sigma F t 0 -> theta * theta * (c0 - cz) <= sigma * (radius_initial cfg * radius_initial cfg) ->
     exists a' val' c r k, dl_solve E fuel cfg (cg_solve tol) g init = Some (Ok a') /\ assigns E fs a' val' /\ compute_cost E g a' = Ok (c, r) /\
       (1 <= k <= iteration_cap (max_iterations (dl_term cfg)))%nat /\ c - cz <= (1 - theta) ^ k * (c0 - cz)) /\
  (forall fuel unroll it, same_layout (as_layout init) (g_layout g) -> (1 <= it)%Z -> (Z.to_nat it <= fuel)%nat ->
     exists a' val' c r, fixed_solve E fuel unroll it (cg_solve tol) g init = Some (Ok a') /\ assigns E fs a' val' /\ compute_cost E g a' = Ok (c, r) /\
       c - cz <= (1 - share sigma F t 0) ^ Z.to_nat it * (c0 - cz)).
Proof. exact cg_solves. Qed.
Print Assumptions C95_solves.

Theorem C95_dogleg_rate : forall sigma F t r e, 0 < sigma <= F -> 0 <= t < 1 -> 0 < r -> 0 <= e ->
  exists theta, 0 < theta <= share sigma F t 0 /\ theta * theta * e <= sigma * (r * r).
Proof. exact theta_exists. Qed.
Print Assumptions C95_dogleg_rate.

Theorem C95_tolerance_refuted : exists (E : env R) fs g a val z valz cz rz c0 r0 st, linear_problem E fs /\ well_posed E fs /\ graph_make E fs = Ok g /\ every_column E fs g /\
  assigns E fs a val /\ same_layout (as_layout a) (g_layout g) /\ compute_cost E g a = Ok (c0, r0) /\ is_minimum E fs g z valz cz rz /\ cz < c0 /\
  fixed_step E 100 (cg_solve (fun _ => 1)) g (mkState 0 a c0 r0 false 0) = Ok st /\ s_assign st = a /\ s_cost st = c0.
Proof. exact loose_tolerance. Qed.
Print Assumptions C95_tolerance_refuted.

(* non-vacuity: the chain of two scalars with default settings *)
Example C95_example : exists g z valz cz rz c0 r0, linear_problem exLE chain_fs /\ well_posed exLE chain_fs /\ graph_make exLE chain_fs = Ok g /\ every_column exLE chain_fs g /\
  assigns exLE chain_fs (scalars [vx; vy] [0; 0]) (two_of 0 0) /\ same_layout (as_layout (scalars (T := R) [vx; vy] [0; 0])) (g_layout g) /\
  compute_cost exLE g (scalars [vx; vy] [0; 0]) = Ok (c0, r0) /\ c0 = 66 /\ is_minimum exLE chain_fs g z valz cz rz /\ cz = 64 / 9 /\
  (forall i, Rabs (inexact_tolerance (1 / 10) i) <= 1 / 10) /\
  0 <= lambda_initial (lm_default (T := R) 100) /\ 1 <= lambda_factor (lm_default (T := R) 100) /\ 0 <= lambda_min (lm_default (T := R) 100) /\ lm_quality_min (lm_default (T := R) 100) <= 1 /\
  0 < radius_initial (dl_default (T := R) 100) /\ dl_quality_min (dl_default (T := R) 100) <= 1.
Proof. exact chain_rates. Qed.
