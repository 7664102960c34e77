(* C110: full Gauss-Newton steps *)
From Coq Require Import List Arith Bool Reals ZArith.
From Verif Require Import Num NumR Py Arr MLayout MAssign MNoise MSparse MFactor MGraph MLinear MSolver SpecLayout SpecTree SpecAssign SpecGraph SpecSparse SpecSolver SpecOrder SpecInv SpecDescent SpecCgLin SpecLocal SpecFall PExRecover Ex ExG ExS PExDescent PExFall.
Import ListNotations.
Local Open Scope R_scope.

Theorem C110_descends : forall (E : env R) fs g, classes_ok (e_cls E) -> (forall f, In f fs -> factor_ok f) -> graph_make E fs = Ok g ->
  well_shaped E fs -> total residual_dim fs <> 0%nat ->
  forall s val, assigns E fs (s_assign s) val -> same_layout (as_layout (s_assign s)) (g_layout g) -> current E g s ->
  forall m F K t step l s', 0 <= m -> 0 <= F -> 0 <= K -> 0 <= t -> 2 * t + t * t < 1 -> K * sqrt (s_cost s) <= t * (m + 2 * Rlit 1 100000) ->
  full_body E step -> walk E g step l s s' -> (forall v, In v l -> tame E g m F K v) ->
  (1 - 2 * t - t * t) * vsum (map (fun v => sumsq (snd v) / (F + Rlit 1 100000)) l) <= s_cost s - s_cost s' /\ 0 <= s_cost s' /\
  (l <> [] -> exists v, In v l /\ sumsq (snd v) * ((1 - 2 * t - t * t) * INR (length l)) <= s_cost s * (F + Rlit 1 100000)).
Proof. exact gn_falls. Qed.
Print Assumptions C110_descends.

Theorem C110_large_gradients : forall (E : env R) fs g, classes_ok (e_cls E) -> (forall f, In f fs -> factor_ok f) -> graph_make E fs = Ok g ->
  well_shaped E fs -> total residual_dim fs <> 0%nat ->
  forall s val, assigns E fs (s_assign s) val -> same_layout (as_layout (s_assign s)) (g_layout g) -> current E g s ->
  forall m F K t step l s' eps, 0 <= m -> 0 <= F -> 0 <= K -> 0 <= t -> 2 * t + t * t < 1 -> K * sqrt (s_cost s) <= t * (m + 2 * Rlit 1 100000) ->
  full_body E step -> walk E g step l s s' -> (forall v, In v l -> tame E g m F K v) ->
  INR (steep eps l) * ((1 - 2 * t - t * t) * eps) <= (s_cost s - s_cost s') * (F + Rlit 1 100000).
Proof. exact gn_steep. Qed.
Print Assumptions C110_large_gradients.

Theorem C110_solves : forall (E : env R) fs g, well_posed E fs -> graph_make E fs = Ok g ->
  forall init val c0 r0 m F K t, assigns E fs init val -> compute_cost E g init = Ok (c0, r0) ->
  0 <= m -> 0 <= F -> 0 <= K -> 0 <= t -> 2 * t + t * t < 1 -> K * sqrt c0 <= t * (m + 2 * Rlit 1 100000) -> tame_below E fs g m F K c0 ->
  (forall cfg fuel, (iteration_cap (max_iterations cfg) <= fuel)%nat ->
     exists a' val' c r, gn_solve E fuel cfg cholmod_solve g init = Some (Ok a') /\ assigns E fs a' val' /\ compute_cost E g a' = Ok (c, r) /\ c <= c0) /\
  (forall fuel unroll it, same_layout (as_layout init) (g_layout g) -> (1 <= it)%Z -> (Z.to_nat it <= fuel)%nat ->
     exists a' val' c r, fixed_solve E fuel unroll it cholmod_solve g init = Some (Ok a') /\ assigns E fs a' val' /\ compute_cost E g a' = Ok (c, r) /\ c <= c0).
Proof. exact gn_solves. Qed.
Print Assumptions C110_solves.

Theorem C110_converges : forall (E : env R) fs g, well_posed E fs -> graph_make E fs = Ok g ->
  forall init val c0 r0 m F K t sigma, assigns E fs init val -> compute_cost E g init = Ok (c0, r0) ->
  0 <= m -> 0 <= F -> 0 <= K -> 0 <= t -> 2 * t + t * t < 1 -> K * sqrt c0 <= t * (m + 2 * Rlit 1 100000) -> tame_below E fs g m F K c0 ->
  0 < sigma <= F -> seen_below E fs g sigma c0 ->
  exists rho, 0 <= rho < 1 /\ rho = 1 - (1 - 2 * t - t * t) * (sigma / (F + Rlit 1 100000)) /\
  (forall cfg fuel, (iteration_cap (max_iterations cfg) <= fuel)%nat ->
     exists a' val' c r k, gn_solve E fuel cfg cholmod_solve g init = Some (Ok a') /\ assigns E fs a' val' /\ compute_cost E g a' = Ok (c, r) /\
       (1 <= k <= iteration_cap (max_iterations cfg))%nat /\ c <= rho ^ k * c0) /\
  (forall fuel unroll it, same_layout (as_layout init) (g_layout g) -> (1 <= it)%Z -> (Z.to_nat it <= fuel)%nat ->
     exists a' val' c r, fixed_solve E fuel unroll it cholmod_solve g init = Some (Ok a') /\ assigns E fs a' val' /\ compute_cost E g a' = Ok (c, r) /\ c <= rho ^ Z.to_nat it * c0).
Proof. exact gn_converges. Qed.
Print Assumptions C110_converges.

Theorem C110_large_curvature_refuted : forall M, 2 <= M -> exists (E : env R) fs g init val r A ng,
  classes_ok (e_cls E) /\ (forall f, In f fs -> factor_ok f) /\ well_shaped E fs /\ graph_make E fs = Ok g /\ assigns E fs init val /\
  compute_cost E g init = Ok (1, r) /\ tame E g 1 1 M (mkState 0%nat init 1 r false 0, A, ng) /\ compute_whitened_residual_jacobian E g init r = Ok A /\
  exists a' c' r', compute_cost E g a' = Ok (c', r') /\ (9/10 * M) * (9/10 * M) <= c' /\
    (forall fuel, gn_solve E (S fuel) (term_default 1) cholmod_solve g init = Some (Ok a')) /\
    (forall fuel unroll, fixed_solve E (S fuel) unroll 1 cholmod_solve g init = Some (Ok a')).
Proof. exact gn_raises. Qed.
Print Assumptions C110_large_curvature_refuted.

(* non-vacuity: non-vacuity: one step on the residual x^2 - 2 from 3/2, with t = 1/36 *)
Example C110_example : let s := parab_at (3/2) 0 in exists s' A ng,
  (forall f, In f parab -> factor_ok f) /\ graph_make exSE parab = Ok gparab /\ well_shaped exSE parab /\ total residual_dim parab <> 0%nat /\
  assigns exSE parab (s_assign s) (const_of (3/2)) /\ same_layout (as_layout (s_assign s)) (g_layout gparab) /\ current exSE gparab s /\
  2 * (1/36) + 1/36 * (1/36) < 1 /\ 1 * sqrt (s_cost s) <= 1/36 * (9 + 2 * Rlit 1 100000) /\ ng <> vzero (length ng) /\
  walk exSE gparab (gn_step exSE (term_default 100) cholmod_solve) [(s, A, ng)] s s' /\ (forall v, In v [(s, A, ng)] -> tame exSE gparab 9 9 1 v).
Proof. exact ex_falls. Qed.

(* non-vacuity: non-vacuity: the residual x^2 - 2 from 3/2, with t = 1/28 and sigma = 7 *)
Example C110_solve_example : exists r0, well_posed exSE parab /\ graph_make exSE parab = Ok gparab /\ assigns exSE parab (scalars [vx] [3/2]) (const_of (3/2)) /\
  same_layout (as_layout (scalars (T := R) [vx] [3/2])) (g_layout gparab) /\ compute_cost exSE gparab (scalars [vx] [3/2]) = Ok (1/16, r0) /\ 2 * (1/28) + 1/28 * (1/28) < 1 /\
  1 * sqrt (1/16) <= 1/28 * (7 + 2 * Rlit 1 100000) /\ tame_below exSE parab gparab 7 9 1 (1/16) /\ 0 < 7 <= 9 /\ seen_below exSE parab gparab 7 (1/16).
Proof. exact ex_rate. Qed.
