(* C81: the solvers carry out the textbook iterations. *)
From Coq Require Import List Arith Bool Reals ZArith.
From Verif Require Import Num NumR Py Arr MLayout MAssign MNoise MSparse MFactor MGraph MLinear MSolver SpecLayout SpecTree SpecAssign SpecGraph SpecSparse SpecNoise SpecDeriv SpecInv SpecSolver SpecLocal SpecTwin SpecBook Ex ExG ExS PSolver2 PExSolver PExDescent PExLocal PExBook.
Import ListNotations.
Local Open Scope R_scope.

Theorem C81_gauss_newton : forall (E : env R) fs g s val step, well_posed E fs -> graph_make E fs = Ok g -> carries E fs g s val val ->
  gauss_newton_iteration E g cholmod_solve step ->
  exists s' val', step s = Ok s' /\ carries E fs g s' val' val' /\ gauss_newton_turn E fs val val'.
Proof. exact book_gauss_newton. Qed.
Print Assumptions C81_gauss_newton.

Theorem C81_trust_region : forall (E : env R) fs g s val old, well_posed E fs -> graph_make E fs = Ok g -> carries E fs g s val old ->
  (forall cfg, 0 <= s_extra s ->
     exists s' b', lm_step E cfg cholmod_solve g s = Ok s' /\ lm_turn E fs cfg (mkBook val old (s_extra s)) b' /\
       carries E fs g s' (b_val b') (b_old b') /\ s_extra s' = b_extra b') /\
  (forall cfg, 0 < s_extra s ->
     exists s' b', dl_step E cfg cholmod_solve g s = Ok s' /\ dogleg_turn E fs cfg (mkBook val old (s_extra s)) b' /\
       carries E fs g s' (b_val b') (b_old b') /\ s_extra s' = b_extra b').
Proof. exact book_trust_region. Qed.
Print Assumptions C81_trust_region.

Theorem C81_solves : forall (E : env R) fs g init val fuel, well_posed E fs -> graph_make E fs = Ok g -> assigns E fs init val ->
  (forall cfg, (iteration_cap (max_iterations cfg) <= fuel)%nat ->
     exists a' k val', gn_solve E fuel cfg cholmod_solve g init = Some (Ok a') /\ (1 <= k <= iteration_cap (max_iterations cfg))%nat /\
       turns (gauss_newton_turn E fs) k val val' /\ assigns E fs a' val') /\
  (forall unroll it, same_layout (as_layout init) (g_layout g) -> (1 <= it)%Z -> (Z.to_nat it <= fuel)%nat ->
     exists a' val', fixed_solve E fuel unroll it cholmod_solve g init = Some (Ok a') /\ turns (gauss_newton_turn E fs) (Z.to_nat it) val val' /\ assigns E fs a' val') /\
  (forall cfg, (iteration_cap (max_iterations (lm_term cfg)) <= fuel)%nat -> 0 < lambda_initial cfg -> 0 < lambda_factor cfg -> 0 < lambda_min cfg ->
     exists a' k b', lm_solve E fuel cfg cholmod_solve g init = Some (Ok a') /\ (1 <= k <= iteration_cap (max_iterations (lm_term cfg)))%nat /\
       turns (lm_turn E fs cfg) k (mkBook val val (lambda_initial cfg)) b' /\ assigns E fs a' (b_val b')) /\
  (forall cfg, (iteration_cap (max_iterations (dl_term cfg)) <= fuel)%nat -> 0 < radius_initial cfg ->
     exists a' k b', dl_solve E fuel cfg cholmod_solve g init = Some (Ok a') /\ (1 <= k <= iteration_cap (max_iterations (dl_term cfg)))%nat /\
       turns (dogleg_turn E fs cfg) k (mkBook val val (radius_initial cfg)) b' /\ assigns E fs a' (b_val b')).
Proof. exact book_solves. Qed.
Print Assumptions C81_solves.

Theorem C81_deterministic : forall (E : env R) fs,
  (forall val v1 v2, gauss_newton_turn E fs val v1 -> gauss_newton_turn E fs val v2 -> forall v, In v (mentioned fs) -> v1 v = v2 v) /\
  (forall cfg b b1 b2, lm_turn E fs cfg b b1 -> lm_turn E fs cfg b b2 ->
     b_extra b1 = b_extra b2 /\ forall v, In v (mentioned fs) -> b_val b1 v = b_val b2 v /\ b_old b1 v = b_old b2 v).
Proof. exact book_deterministic. Qed.
Print Assumptions C81_deterministic.

(* non-vacuity: the residuals x^2 - 3 and x - 6, from x = 1 *)
Example C81_case : exists g s, well_posed exSE bowl /\ graph_make exSE bowl = Ok g /\ carries exSE bowl g s (const_of 1) (const_of 1) /\
  assigns exSE bowl (scalars [vx] [1]) (const_of 1) /\
  (forall d, model exSE bowl (const_of 1) (const_of 1) (fun _ => [d]) = (2 * d - 2) * (2 * d - 2) + (d - 5) * (d - 5)) /\
  gauss_newton_turn exSE bowl (const_of 1) (const_of (1 + 9 / (5 + 1 / 100000))).
Proof. exact bowl_turn. Qed.
