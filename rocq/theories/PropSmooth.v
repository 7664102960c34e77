(* Theorem C100: convergence near an exact fit of user-written residuals with default Jacobians. *)
From Coq Require Import List Arith Bool Reals ZArith.
From Verif Require Import Num NumR Py Arr MLayout MAssign MNoise MSparse MFactor MGraph MLinear MSolver MAuto MDual SpecLayout SpecTree SpecAssign SpecGraph SpecSparse SpecDeriv SpecSolver SpecOrder SpecInv SpecAuto SpecDual SpecLin SpecCgLin SpecDescent SpecLocal SpecSmooth Ex ExG ExS PExDual PExSmooth.
Import ListNotations.
Local Open Scope R_scope.

Theorem C100_constants : forall C prog fs g z valz, let E := plain_programs C prog in
  program_problem C prog fs -> graph_make E fs = Ok g -> assigns E fs z valz -> same_layout (as_layout z) (g_layout g) ->
  exact_fit prog fs valz -> determined_at E g z ->
  exists rho m K f, 0 < rho /\ good_solution E fs g z valz rho m K 0 /\ 0 <= f /\ bounded_near E fs g z rho f.
Proof. exact smooth_constants. Qed.
Print Assumptions C100_constants.

Theorem C100_solves : forall C prog fs g z valz, let E := plain_programs C prog in
  program_problem C prog fs -> graph_make E fs = Ok g -> assigns E fs z valz -> same_layout (as_layout z) (g_layout g) ->
  exact_fit prog fs valz -> determined_at E g z ->
  exists rho q, 0 < rho /\ 0 <= q < 1 /\ forall init val, assigns E fs init val -> distance fs val valz <= rho ->
  (forall cfg fuel a', gn_solve E fuel cfg cholmod_solve g init = Some (Ok a') -> exists val', assigns E fs a' val' /\ distance fs val' valz <= q * distance fs val valz) /\
  (forall fuel unroll it, same_layout (as_layout init) (g_layout g) -> (1 <= it)%Z -> (Z.to_nat it <= fuel)%nat ->
   exists a' val', fixed_solve E fuel unroll it cholmod_solve g init = Some (Ok a') /\ assigns E fs a' val' /\ distance fs val' valz <= q ^ Z.to_nat it * distance fs val valz).
Proof. exact smooth_solves. Qed.
Print Assumptions C100_solves.

Theorem C100_conjugate_gradients : forall C prog fs g z valz, let E := plain_programs C prog in
  program_problem C prog fs -> graph_make E fs = Ok g -> assigns E fs z valz -> same_layout (as_layout z) (g_layout g) ->
  exact_fit prog fs valz -> determined_at E g z ->
  exists rho t q, 0 < rho /\ 0 < t /\ 0 <= q < 1 /\ forall tol step s val, (forall i, Rabs (tol i) <= t) -> gauss_newton_iteration E g (cg_solve tol) step ->
  at_values E fs g s val -> distance fs val valz <= rho ->
  forall k s', runs step k s s' -> exists val', at_values E fs g s' val' /\ distance fs val' valz <= q ^ k * distance fs val valz.
Proof. exact smooth_cg. Qed.
Print Assumptions C100_conjugate_gradients.

Theorem C100_levenberg_marquardt : forall C prog fs g z valz, let E := plain_programs C prog in
  program_problem C prog fs -> graph_make E fs = Ok g -> assigns E fs z valz -> same_layout (as_layout z) (g_layout g) ->
  exact_fit prog fs valz -> determined_at E g z ->
  exists rho, 0 < rho /\ forall lambda, 0 <= lambda -> exists q, 0 <= q < 1 /\
  forall cfg l s s' val, 0 < lm_quality_min cfg -> 1 <= lambda_factor cfg -> s_extra s = lambda -> at_values E fs g s val -> distance fs val valz <= rho ->
  accepted E g (lm_step E cfg cholmod_solve) (lm_quality_min cfg) l s s' ->
  exists val', at_values E fs g s' val' /\ distance fs val' valz <= q ^ length l * distance fs val valz.
Proof. exact smooth_lm. Qed.
Print Assumptions C100_levenberg_marquardt.

Theorem C100_isolated : forall C prog fs g z valz, let E := plain_programs C prog in
  program_problem C prog fs -> graph_make E fs = Ok g -> assigns E fs z valz -> same_layout (as_layout z) (g_layout g) ->
  exact_fit prog fs valz -> determined_at E g z ->
  exists rho, 0 < rho /\ forall s val gr, at_values E fs g s val -> distance fs val valz <= rho -> half_gradient E g s gr -> sumsq gr = 0 -> distance fs val valz = 0.
Proof. exact smooth_isolated. Qed.
Print Assumptions C100_isolated.

Theorem C100_kinks_refuted : exists C prog fs g z valz, let E := plain_programs C prog in program_problem C prog fs /\ graph_make E fs = Ok g /\ assigns E fs z valz /\ same_layout (as_layout z) (g_layout g) /\
  (forall f e, In f fs -> In e (prog (f_cls f)) -> denote (inputs valz f) (fields f) e = 0) /\ determined_at E g z /\
  forall rho, 0 < rho -> exists init val, assigns E fs init val /\ same_layout (as_layout init) (g_layout g) /\ 0 < distance fs val valz <= rho /\
  forall step s s', gauss_newton_iteration E g cholmod_solve step -> s_assign s = init -> at_values E fs g s val -> step s = Ok s' -> s_assign s' = init.
Proof. exact kink. Qed.
Print Assumptions C100_kinks_refuted.

(* non-vacuity: a point located by its distances to two known points *)
Example C100_example : exists g z valz, let E := plain_programs plane range_prog in program_problem plane range_prog two_ranges /\ graph_make E two_ranges = Ok g /\
  assigns E two_ranges z valz /\ same_layout (as_layout z) (g_layout g) /\ exact_fit range_prog two_ranges valz /\ determined_at E g z.
Proof. exact ranges_example. Qed.
