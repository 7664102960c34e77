(* Theorem C77: convergence close to a solution. *)
From Coq Require Import List Arith Bool ZArith Reals.
From Verif Require Import Num NumR Py Arr MLayout MAssign MNoise MSparse MFactor MGraph MLinear MSolver SpecLayout SpecTree SpecAssign SpecGraph SpecSparse SpecDeriv SpecSolver SpecOrder SpecInv SpecLin SpecCgLin SpecDescent SpecLocal.
From Verif Require Import Ex ExG ExS PExLocal.
Import ListNotations.
Local Open Scope R_scope.

Theorem C77_gauss_newton :
  forall (E : env R) fs g z valz rho m K S, good_solution E fs g z valz rho m K S ->
  forall step s val, gauss_newton_iteration E g cholmod_solve step -> at_values E fs g s val -> distance fs val valz <= rho ->
  (forall s', step s = Ok s' -> exists val', at_values E fs g s' val' /\
     distance fs val' valz * (m * m + 1 / 100000) <= (1 / 100000 + S + K * m * distance fs val valz) * distance fs val valz) /\
  (forall k s', runs step k s s' -> exists val', at_values E fs g s' val' /\
     distance fs val' valz <= ((1 / 100000 + S + K * m * rho) / (m * m + 1 / 100000)) ^ k * distance fs val valz).
Proof. exact near_cholmod. Qed.
Print Assumptions C77_gauss_newton.

Theorem C77_conjugate_gradients :
  forall (E : env R) fs g z valz rho m K S, good_solution E fs g z valz rho m K S ->
  forall f tol step s val, 0 <= f -> bounded_near E fs g z rho f -> gauss_newton_iteration E g (cg_solve tol) step -> at_values E fs g s val -> distance fs val valz <= rho ->
  (forall s', step s = Ok s' -> exists val', at_values E fs g s' val' /\
     distance fs val' valz * (m * m) <= (S + K * m * distance fs val valz + Rabs (tol (s_iter s)) * (f * f + f * K * distance fs val valz + S)) * distance fs val valz) /\
  (forall t, (forall i, Rabs (tol i) <= t) -> S + K * m * rho + t * (f * f + f * K * rho + S) <= m * m ->
   forall k s', runs step k s s' -> exists val', at_values E fs g s' val' /\
     distance fs val' valz <= ((S + K * m * rho + t * (f * f + f * K * rho + S)) / (m * m)) ^ k * distance fs val valz).
Proof. exact near_cg. Qed.
Print Assumptions C77_conjugate_gradients.

Theorem C77_levenberg_marquardt :
  forall (E : env R) fs g z valz rho m K S, good_solution E fs g z valz rho m K S ->
  forall cfg l s s' val, 0 < lm_quality_min cfg -> 1 <= lambda_factor cfg -> 0 <= s_extra s -> at_values E fs g s val -> distance fs val valz <= rho ->
  accepted E g (lm_step E cfg cholmod_solve) (lm_quality_min cfg) l s s' ->
  exists val', at_values E fs g s' val' /\
    distance fs val' valz <= ((s_extra s + 1 / 100000 + S + K * m * rho) / (m * m + (s_extra s + 1 / 100000))) ^ length l * distance fs val valz.
Proof. exact near_lm. Qed.
Print Assumptions C77_levenberg_marquardt.

Theorem C77_solves :
  forall (E : env R) fs g z valz rho m K S, good_solution E fs g z valz rho m K S ->
  forall init val, assigns E fs init val -> distance fs val valz <= rho -> let q := (1 / 100000 + S + K * m * rho) / (m * m + 1 / 100000) in
  0 <= q < 1 /\
  (forall cfg fuel a', gn_solve E fuel cfg cholmod_solve g init = Some (Ok a') -> exists val', assigns E fs a' val' /\ distance fs val' valz <= q * distance fs val valz) /\
  (forall fuel unroll it, same_layout (as_layout init) (g_layout g) -> (1 <= it)%Z -> (Z.to_nat it <= fuel)%nat ->
   exists a' val', fixed_solve E fuel unroll it cholmod_solve g init = Some (Ok a') /\ assigns E fs a' val' /\ distance fs val' valz <= q ^ Z.to_nat it * distance fs val valz).
Proof. exact near_solves. Qed.
Print Assumptions C77_solves.

Theorem C77_only_stationary :
  forall (E : env R) fs g z valz rho m K S, good_solution E fs g z valz rho m K S ->
  forall s val gr, at_values E fs g s val -> distance fs val valz <= rho -> half_gradient E g s gr -> sumsq gr = 0 -> distance fs val valz = 0.
Proof. exact near_stationary. Qed.
Print Assumptions C77_only_stationary.

Theorem C77_everywhere_refuted :
  exists (E : env R) fs g init z val valz a' val', good_solution E fs g z valz (1/2) 3 1 0 /\
  assigns E fs init val /\ distance fs val valz <= 2 /\
  gn_solve E 1 (term_default 100) cholmod_solve g init = Some (Ok a') /\ assigns E fs a' val' /\ distance fs val' valz = 2.
Proof. exact stuck. Qed.
Print Assumptions C77_everywhere_refuted.

Example C77_example : exists g s, good_solution exSE bowl g (scalars [vx] [2]) (fun _ => leaf1 [2]) (1/2) 3 1 2 /\
  bounded_near exSE bowl g (scalars [vx] [2]) (1/2) 6 /\ 2 + 1 * 3 * (1/2) + 1/10 * (6 * 6 + 6 * 1 * (1/2) + 2) <= 3 * 3 /\
  at_values exSE bowl g s (fun _ => leaf1 [5/2]) /\ distance bowl (fun _ => leaf1 [5/2]) (fun _ => leaf1 [2]) = 1/2.
Proof. exact bowl_example. Qed.
