(* Theorem C96: the forcing sequence makes inexact Gauss-Newton converge superlinearly. *)
From Coq Require Import List Arith Bool Reals ZArith.
From Verif Require Import Num NumR Py Arr MLayout MAssign MNoise MSparse MFactor MGraph MLinear MSolver SpecLayout SpecTree SpecAssign SpecGraph SpecSparse SpecDeriv SpecSolver SpecOrder SpecInv SpecLin SpecCgLin SpecDescent SpecLocal Ex ExG ExS PExLocal PExSuper.
Import ListNotations.
Local Open Scope R_scope.

Theorem C96_steps : forall (E : env R) fs g z valz rho m K S, good_solution E fs g z valz rho m K S ->
  forall f t tol, 0 <= f -> bounded_near E fs g z rho f -> (forall i, Rabs (tol i) <= t) -> (S + K * m * rho + t * (f * f + f * K * rho + S)) / (m * m) < 1 ->
  (forall eps, 0 < eps -> exists N, forall i, (N <= i)%nat -> Rabs (tol i) <= eps) ->
  forall eps, 0 < eps -> exists N, forall step k s val s1 s2, gauss_newton_iteration E g (cg_solve tol) step ->
    at_values E fs g s val -> s_iter s = 0%nat -> distance fs val valz <= rho -> (N <= k)%nat -> runs step k s s1 -> step s1 = Ok s2 ->
    exists v1 v2, at_values E fs g s1 v1 /\ at_values E fs g s2 v2 /\ distance fs v2 valz <= (S / (m * m) + eps) * distance fs v1 valz.
Proof. exact super_steps. Qed.
Print Assumptions C96_steps.

Theorem C96_solves : forall (E : env R) fs g z valz rho m K S, good_solution E fs g z valz rho m K S ->
  forall f t tol, 0 <= f -> bounded_near E fs g z rho f -> (forall i, Rabs (tol i) <= t) -> (S + K * m * rho + t * (f * f + f * K * rho + S)) / (m * m) < 1 ->
  (forall eps, 0 < eps -> exists N, forall i, (N <= i)%nat -> Rabs (tol i) <= eps) ->
  forall eps, 0 < eps -> exists N, forall init val, assigns E fs init val -> distance fs val valz <= rho ->
    (forall cfg fuel, (iteration_cap (max_iterations cfg) <= fuel)%nat ->
       exists a' k val', gn_solve E fuel cfg (cg_solve tol) g init = Some (Ok a') /\ (1 <= k <= iteration_cap (max_iterations cfg))%nat /\ assigns E fs a' val' /\
         distance fs val' valz <= (S / (m * m) + eps) ^ (k - N) * distance fs val valz) /\
    (forall fuel unroll it, same_layout (as_layout init) (g_layout g) -> (1 <= it)%Z -> (Z.to_nat it <= fuel)%nat ->
       exists a' val', fixed_solve E fuel unroll it (cg_solve tol) g init = Some (Ok a') /\ assigns E fs a' val' /\
         distance fs val' valz <= (S / (m * m) + eps) ^ (Z.to_nat it - N) * distance fs val valz).
Proof. exact super_solves. Qed.
Print Assumptions C96_solves.

Theorem C96_forcing_sequence : forall eta, (forall i, Rabs (inexact_tolerance eta i) <= Rabs eta) /\
  forall eps, 0 < eps -> exists N, forall i, (N <= i)%nat -> Rabs (inexact_tolerance eta i) <= eps.
Proof. exact forcing_sequence. Qed.
Print Assumptions C96_forcing_sequence.

Theorem C96_cholmod_refuted : exists (E : env R) fs g z valz a val c r, good_solution E fs g z valz 1 1 0 0 /\
  assigns E fs a val /\ same_layout (as_layout a) (g_layout g) /\ compute_cost E g a = Ok (c, r) /\ distance fs val valz = 1 /\
  forall k st, iterate k (fixed_step E 100 cholmod_solve g) (mkState 0 a c r false 0) = Ok st ->
    exists vk, at_values E fs g st vk /\ distance fs vk valz = (1 / 100001) ^ k.
Proof. exact cholmod_linear. Qed.
Print Assumptions C96_cholmod_refuted.

(* non-vacuity: x^2 = 4 from 5/2 with the default eta = 1/100 *)
Example C96_example : exists g init, good_solution exSE stuck_fs g (scalars [vx] [2]) (fun _ => leaf1 [2]) (1/2) 3 1 0 /\ bounded_near exSE stuck_fs g (scalars [vx] [2]) (1/2) 5 /\
  (0 + 1 * 3 * (1/2) + Rabs (1/100) * (5 * 5 + 5 * 1 * (1/2) + 0)) / (3 * 3) < 1 /\
  assigns exSE stuck_fs init (fun _ => leaf1 [5/2]) /\ same_layout (as_layout init) (g_layout g) /\ distance stuck_fs (fun _ => leaf1 [5/2]) (fun _ => leaf1 [2]) = 1/2.
Proof. exact super_example. Qed.
