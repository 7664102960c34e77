(* Theorem C94: with conjugate gradients only the ratios of the weights matter. *)
From Coq Require Import List Arith Bool ZArith Permutation Reals.
From Verif Require Import Num NumR Py Arr MLayout MAssign MNoise MSparse MFactor MGraph MLinear MSolver SpecLayout SpecTree SpecAssign SpecGraph SpecSparse SpecNoise SpecDeriv SpecOrder SpecTwin SpecRatio.
From Verif Require Import Ex ExG ExS PExDescent PRatio2 PExTwin PExRatio.
Import ListNotations.
Local Open Scope R_scope.

(* Gauss-Newton, Levenberg-Marquardt and Dogleg with conjugate gradients, from the same values,
   on problems one of which carries k times the information of the other: same outcome *)
Theorem C94_solve :
  forall (E : env R), classes_ok (e_cls E) ->
  forall k fs fs' g g' init init' val solve fuel, 0 < k ->
  (forall f, In f fs -> factor_ok f) -> (forall f, In f fs' -> factor_ok f) -> no_repeats fs -> no_repeats fs' ->
  proportional_information k E fs fs' ->
  graph_make E fs = Ok g -> graph_make E fs' = Ok g' ->
  total residual_dim fs <> 0%nat -> total residual_dim fs' <> 0%nat -> well_shaped E fs -> well_shaped E fs' ->
  assigns E fs init val -> assigns E fs init' val ->
  cg_based_solver E solve ->
  same_outcome E fs (solve fuel g init) (solve fuel g' init').
Proof. exact solve_ratio. Qed.
Print Assumptions C94_solve.

(* the fixed-iteration solver *)
Theorem C94_fixed :
  forall (E : env R), classes_ok (e_cls E) ->
  forall k fs fs' g g' init init' val unroll it fuel tol, 0 < k ->
  (forall f, In f fs -> factor_ok f) -> (forall f, In f fs' -> factor_ok f) -> no_repeats fs -> no_repeats fs' ->
  proportional_information k E fs fs' ->
  graph_make E fs = Ok g -> graph_make E fs' = Ok g' ->
  total residual_dim fs <> 0%nat -> total residual_dim fs' <> 0%nat -> well_shaped E fs -> well_shaped E fs' ->
  assigns E fs init val -> assigns E fs init' val ->
  same_layout (as_layout init) (g_layout g) -> same_layout (as_layout init') (g_layout g') ->
  same_outcome E fs (fixed_solve E fuel unroll it (cg_solve tol) g init) (fixed_solve E fuel unroll it (cg_solve tol) g' init').
Proof. exact fixed_ratio. Qed.
Print Assumptions C94_fixed.

(* what is proportional: every sqrt-precision and Huber threshold times c, whatever the class of
   the noise model and the choice of the square root *)
Theorem C94_noise :
  forall (E : env R) c fs fs', 0 < c -> (forall f, In f fs -> factor_ok f) -> (forall f, In f fs' -> factor_ok f) -> well_shaped E fs ->
  Forall2 (scaled_factor c E) fs fs' -> proportional_information (c * c) E fs fs'.
Proof. exact prop_factors. Qed.
Print Assumptions C94_noise.

(* ... C78's equivalence (ratio 1), composition, parts, and all factors given m + 1 times *)
Theorem C94_closed :
  forall (E : env R),
  (forall fs fs', same_information E fs fs' <-> proportional_information 1 E fs fs') /\
  (forall k l fs1 fs2 fs3, proportional_information k E fs1 fs2 -> proportional_information l E fs2 fs3 -> proportional_information (k * l) E fs1 fs3) /\
  (forall k a a' b b', proportional_information k E a a' -> proportional_information k E b b' -> proportional_information k E (a ++ b) (a' ++ b')) /\
  (forall m fs, proportional_information (INR (m + 1)) E fs (concat (repeat fs (m + 1)))).
Proof. exact ratio_closed. Qed.
Print Assumptions C94_closed.

(* CHOLMOD's damping is absolute *)
Theorem C94_cholmod_refuted :
  exists (E : env R) fs fs' g g' init val a a' v,
  classes_ok (e_cls E) /\ (forall f, In f fs -> factor_ok f) /\ (forall f, In f fs' -> factor_ok f) /\ no_repeats fs /\ no_repeats fs' /\
  proportional_information 4 E fs fs' /\ graph_make E fs = Ok g /\ graph_make E fs' = Ok g' /\ well_shaped E fs /\ well_shaped E fs' /\
  assigns E fs init val /\ gradient_test_off (term_default 1) /\ gn_solve E 1 (term_default 1) cholmod_solve g init = Some (Ok a) /\ gn_solve E 1 (term_default 1) cholmod_solve g' init = Some (Ok a') /\
  get_value (e_cls E) a v <> get_value (e_cls E) a' v.
Proof. exact cholmod_scale. Qed.
Print Assumptions C94_cholmod_refuted.

(* so is the gradient tolerance *)
Theorem C94_gradient_refuted :
  exists (E : env R) fs fs' g g' init val a a' v cfg tol,
  classes_ok (e_cls E) /\ (forall f, In f fs -> factor_ok f) /\ (forall f, In f fs' -> factor_ok f) /\ no_repeats fs /\ no_repeats fs' /\
  proportional_information (1 / 100) E fs fs' /\ graph_make E fs = Ok g /\ graph_make E fs' = Ok g' /\ well_shaped E fs /\ well_shaped E fs' /\
  assigns E fs init val /\ gn_solve E 2 cfg (cg_solve tol) g init = Some (Ok a) /\ gn_solve E 2 cfg (cg_solve tol) g' init = Some (Ok a') /\
  get_value (e_cls E) a v <> get_value (e_cls E) a' v.
Proof. exact gradient_scale. Qed.
Print Assumptions C94_gradient_refuted.

Example C94_example : classes_ok (e_cls (exSE (N := NumR))) /\ (forall f, In f [sqw 1] -> factor_ok f) /\ (forall f, In f [sqw 5] -> factor_ok f) /\
  no_repeats [sqw 1] /\ no_repeats [sqw 5] /\ proportional_information 25 exSE [sqw 1] [sqw 5] /\
  graph_make exSE [sqw 1] = Ok (graph_of [sqw 1]) /\ graph_make exSE [sqw 5] = Ok (graph_of [sqw 5]) /\
  total residual_dim [sqw 1] = 1%nat /\ total residual_dim [sqw 5] = 1%nat /\ well_shaped exSE [sqw 1] /\ well_shaped exSE [sqw 5] /\
  assigns exSE [sqw 1] (scalars [vx] [3]) (const_of 3) /\
  cg_based_solver exSE (fun fuel => lm_solve exSE fuel (lm_default 11) (inexact_cg_solver (1/10))).
Proof. exact ratio_example. Qed.
Example C94_noise_example : scaled_factor 5 exE (between 10 va vc (huberd (dg2 1 1) 3) [1; 2]) (between 10 va vc (huberd (gs2 3 4 (-4) 3) (5 * 3)) [1; 2]) /\
  factor_ok (between 10 va vc (huberd (dg2 1 1) 3) [1; 2]) /\ factor_ok (between 10 va vc (huberd (gs2 3 4 (-4) 3) (5 * 3)) [1; 2]).
Proof. exact scaled_example. Qed.
