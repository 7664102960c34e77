(* Theorems C74: problems that fall apart into independent parts. *)
From Coq Require Import List Arith Bool ZArith Permutation Reals.
From Verif Require Import Num NumR Py Arr MLayout MAssign MNoise MSparse MFactor MGraph MCov MLinear MSolver SpecLayout SpecTree SpecAssign SpecGraph SpecSparse SpecNoise SpecSolver SpecCov SpecInfo SpecOrder SpecPart.
From Verif Require Import Ex ExG ExS PPart2 PExOrder PExPart PExPartCg.
Import ListNotations.
Local Open Scope R_scope.

(* fixed-iteration Gauss-Newton solves every part as if the rest were not there *)
Theorem C74_fixed_iterations :
  forall (E : env R), classes_ok (e_cls E) ->
  forall fs part rest g g' init init' val unroll it fuel,
  (forall f, In f fs -> factor_ok f) -> Permutation fs (part ++ rest) -> independent part rest ->
  graph_make E fs = Ok g -> graph_make E part = Ok g' -> total residual_dim part <> 0%nat -> well_shaped E fs ->
  assigns E fs init val -> assigns E part init' val ->
  same_layout (as_layout init) (g_layout g) -> same_layout (as_layout init') (g_layout g') ->
  part_outcome E fs part (fixed_solve E fuel unroll it cholmod_solve g init) (fixed_solve E fuel unroll it cholmod_solve g' init').
Proof. exact independent_fixed. Qed.
Print Assumptions C74_fixed_iterations.

(* with conjugate gradients run to convergence too, when the measurements determine all variables *)
Theorem C74_conjugate_gradients :
  forall (E : env R), classes_ok (e_cls E) ->
  forall fs part rest g g' init init' val unroll it fuel,
  (forall f, In f fs -> factor_ok f) -> Permutation fs (part ++ rest) -> independent part rest ->
  graph_make E fs = Ok g -> graph_make E part = Ok g' -> total residual_dim part <> 0%nat -> well_shaped E fs -> determined E fs g ->
  assigns E fs init val -> assigns E part init' val ->
  same_layout (as_layout init) (g_layout g) -> same_layout (as_layout init') (g_layout g') ->
  part_outcome E fs part (fixed_solve E fuel unroll it (conjugate_gradient_solver 0) g init) (fixed_solve E fuel unroll it (conjugate_gradient_solver 0) g' init').
Proof. exact independent_cg. Qed.
Print Assumptions C74_conjugate_gradients.

(* and the marginal covariance of variables of a part is that of the part on its own *)
Theorem C74_marginals :
  forall (E : env R) fs part rest g g' a a' val chol chol' S S',
  (forall f, In f fs -> factor_ok f) -> Permutation fs (part ++ rest) -> independent part rest ->
  graph_make E fs = Ok g -> graph_make E part = Ok g' -> total residual_dim part <> 0%nat ->
  assigns E fs a val -> assigns E part a' val ->
  (forall f, In f fs -> residual_shape_ok E val f) -> (forall f, In f fs -> jacobian_shape_ok E val f) ->
  recovered chol E g a S -> recovered chol' E g' a' S' ->
  forall vs fuel, (forall v, In v vs -> In v (mentioned part)) -> (2 * l_dim (g_local_layout g) + 1 <= fuel)%nat ->
  exists M ch ch', compute_marginal (e_cls E) S fuel vs [] = Ok (Some (M, ch)) /\ compute_marginal (e_cls E) S' fuel vs [] = Ok (Some (M, ch')).
Proof. exact part_marginals. Qed.
Print Assumptions C74_marginals.

(* variables of different parts have covariance zero *)
Theorem C74_uncorrelated :
  forall (E : env R) fs part rest g g' a a' val chol S,
  (forall f, In f fs -> factor_ok f) -> Permutation fs (part ++ rest) -> independent part rest ->
  graph_make E fs = Ok g -> graph_make E part = Ok g' -> total residual_dim part <> 0%nat ->
  assigns E fs a val -> assigns E part a' val ->
  (forall f, In f fs -> residual_shape_ok E val f) -> (forall f, In f fs -> jacobian_shape_ok E val f) ->
  recovered chol E g a S ->
  forall us ws fuel, (forall v, In v us -> In v (mentioned part)) -> (forall v, In v ws -> In v (mentioned rest)) ->
  (2 * l_dim (g_local_layout g) + 1 <= fuel)%nat ->
  exists M ch, compute_marginal (e_cls E) S fuel (us ++ ws) [] = Ok (Some (M, ch)) /\
    forall i j, (i < total (vldim (e_cls E)) us)%nat -> (total (vldim (e_cls E)) us <= j < total (vldim (e_cls E)) (us ++ ws))%nat ->
      ent M i j = 0 /\ ent M j i = 0.
Proof. exact part_uncorrelated. Qed.
Print Assumptions C74_uncorrelated.

(* the stopping tests of GaussNewtonSolver look at the whole problem: a part on its own
   stops earlier and gives other values *)
Theorem C74_gauss_newton_refuted :
  exists (E : env R) part rest g g' init init' val a a' v x, independent part rest /\
  (forall f, In f (part ++ rest) -> factor_ok f) /\ well_shaped E (part ++ rest) /\ graph_make E (part ++ rest) = Ok g /\ graph_make E part = Ok g' /\
  assigns E (part ++ rest) init val /\ assigns E part init' val /\
  gn_solve E 2 (term_default 2) cholmod_solve g init = Some (Ok a) /\ gn_solve E 2 (term_default 2) cholmod_solve g' init' = Some (Ok a') /\
  In v (mentioned part) /\ get_value (e_cls E) a v = Ok x /\ get_value (e_cls E) a' v <> Ok x.
Proof. exact gn_couples. Qed.
Print Assumptions C74_gauss_newton_refuted.

(* LevenbergMarquardtSolver judges a step on the whole problem: it accepts a step that raises
   the cost of a part, which it would have refused for the part on its own *)
Theorem C74_trust_region_refuted :
  exists (E : env R) part rest g g' init init' val a a' b vb v x c c' r r', independent part rest /\
  (forall f, In f (part ++ rest) -> factor_ok f) /\ well_shaped E (part ++ rest) /\ graph_make E (part ++ rest) = Ok g /\ graph_make E part = Ok g' /\
  assigns E (part ++ rest) init val /\ assigns E part init' val /\
  lm_solve E 1 (lm_default 1) cholmod_solve g init = Some (Ok a) /\ lm_solve E 1 (lm_default 1) cholmod_solve g' init' = Some (Ok a') /\
  In v (mentioned part) /\ get_value (e_cls E) a v = Ok x /\ get_value (e_cls E) a' v <> Ok x /\
  assigns E (part ++ rest) a vb /\ assigns E part b vb /\ compute_cost E g' init' = Ok (c, r) /\ compute_cost E g' b = Ok (c', r') /\ c < c'.
Proof. exact lm_couples. Qed.
Print Assumptions C74_trust_region_refuted.

(* stopped earlier they let the parts interact: the step length is computed from the whole problem.
   Alone, the variable of the part is solved exactly *)
Theorem C74_loose_tolerance_refuted : exists (E : env R) part rest g g' init init' val a a' v x, independent part rest /\
  (forall f, In f (part ++ rest) -> factor_ok f) /\ well_shaped E (part ++ rest) /\ graph_make E (part ++ rest) = Ok g /\ graph_make E part = Ok g' /\
  assigns E (part ++ rest) init val /\ assigns E part init' val /\
  fixed_solve E 1 true 1 (conjugate_gradient_solver (1 / 2)) g init = Some (Ok a) /\ fixed_solve E 1 true 1 (conjugate_gradient_solver (1 / 2)) g' init' = Some (Ok a') /\
  In v (mentioned part) /\ get_value (e_cls E) a v = Ok x /\ get_value (e_cls E) a' v <> Ok x.
Proof. exact cg_couples. Qed.
Print Assumptions C74_loose_tolerance_refuted.

(* the problem of C30 is two problems shuffled together; a two-variable problem with a
   factor of its A^T A *)
Example C74_example : classes_ok (e_cls (exSE (N := NumR))) /\ (forall f, In f (quad (N := NumR)) -> factor_ok f) /\
  Permutation (quad (N := NumR)) (quad_x ++ quad_y) /\ independent quad_x quad_y /\
  graph_make exSE (quad (N := NumR)) = Ok gquad /\ graph_make exSE quad_x = Ok (graph_of quad_x) /\ total residual_dim quad_x <> 0%nat /\ well_shaped exSE (quad (N := NumR)) /\
  assigns exSE quad (scalars [vx; vy] [2; 5]) (two_of 2 5) /\ assigns exSE quad_x (scalars [vx] [2]) (two_of 2 5) /\
  same_layout (as_layout (scalars [vx; vy] [2; 5])) (g_layout gquad) /\ same_layout (as_layout (scalars [vx] [2])) (g_layout (graph_of quad_x)) /\
  exists a, fixed_solve exSE 3 false 2 cholmod_solve gquad (scalars [vx; vy] [2; 5]) = Some (Ok a).
Proof. exact ex_part. Qed.
Example C74_example_marginal : exists g g' S S', (forall f, In f pins -> factor_ok f) /\ Permutation pins (pins_x ++ [anchor vy 7]) /\ independent pins_x [anchor vy 7] /\
  graph_make exSE pins = Ok g /\ graph_make exSE pins_x = Ok g' /\ total residual_dim pins_x <> 0%nat /\
  assigns exSE pins (scalars [vx; vy] [2; 5]) (two_of 2 5) /\ assigns exSE pins_x (scalars [vx] [2]) (two_of 2 5) /\
  (forall f, In f pins -> residual_shape_ok exSE (two_of 2 5) f) /\ (forall f, In f pins -> jacobian_shape_ok exSE (two_of 2 5) f) /\
  recovered (fun _ => chol2) exSE g (scalars [vx; vy] [2; 5]) S /\ recovered (fun _ => chol1) exSE g' (scalars [vx] [2]) S' /\
  exists ch, compute_marginal (e_cls exSE) S 5 [vy; vx] [] = Ok (Some ([[1; 0]; [0; / 4]], ch)).
Proof. exact ex_part_marginal. Qed.
(* two pinned scalars *)
Example C74_example_cg : classes_ok (e_cls (exSE (N := NumR))) /\ (forall f, In f apart -> factor_ok f) /\
  Permutation apart ([anchor vy 7] ++ [anchor vx 1]) /\ independent [anchor (N := NumR) vy 7] [anchor vx 1] /\
  graph_make exSE apart = Ok (graph_of apart) /\ graph_make exSE [anchor vy 7] = Ok (graph_of [anchor vy 7]) /\ total residual_dim [anchor (N := NumR) vy 7] <> 0%nat /\
  well_shaped exSE apart /\ determined exSE apart (graph_of apart) /\
  assigns exSE apart (scalars [vx; vy] [2; 5]) (two_of 2 5) /\ assigns exSE [anchor vy 7] (scalars [vy] [5]) (two_of 2 5) /\
  same_layout (as_layout (scalars [vx; vy] [2; 5])) (g_layout (graph_of apart)) /\ same_layout (as_layout (scalars [vy] [5])) (g_layout (graph_of [anchor (N := NumR) vy 7])).
Proof. exact ex_part_cg. Qed.
