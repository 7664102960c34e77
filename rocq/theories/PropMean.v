(* C89: averaging rotations: every full step of the solvers lowers the cost, wherever they start. *)
From Coq Require Import List Arith Bool Reals ZArith.
From Verif Require Import Num NumR Py Arr MLayout MAssign MNoise MSparse MFactor MGraph MLinear MSolver MLie MPose SpecLayout SpecTree SpecAssign SpecNoise SpecGraph SpecSparse SpecDeriv SpecLie SpecPose SpecZero SpecSpatial SpecTwin SpecInv SpecOrder SpecSolver SpecBook SpecSettle SpecTurn SpecMean Ex ExG ExS PExInv PExZero PExTurn PExSettle PExMean.
Import ListNotations.
Local Open Scope R_scope.

Theorem C89_shortens : forall raw d e, turning raw -> length d = lg_dim raw -> length e = lg_dim raw ->
  vnorm (lg_log raw (lg_mul raw (lg_inv raw (lg_exp raw d)) (lg_exp raw e))) <= vnorm (vsub e d).
Proof. exact mean_short. Qed.
Print Assumptions C89_shortens.

Theorem C89_model : forall groups fs, averaging groups fs -> majorised (pose_env groups) fs (rotations groups fs).
Proof. exact mean_model. Qed.
Print Assumptions C89_model.

Theorem C89_general : forall E fs g P init val, well_posed E fs -> graph_make E fs = Ok g -> majorised E fs P ->
  (forall u v, P u -> In v (mentioned fs) -> value_ok (e_cls E (v_ty v)) (u v) /\ retract (e_cls E (v_ty v)) (u v) (vzero (vldim (e_cls E) v)) = Ok (u v)) ->
  assigns E fs init val -> P val -> descends E fs g P init val.
Proof. exact mean_general. Qed.
Print Assumptions C89_general.

Theorem C89_descent : forall groups fs g init val, averaging groups fs -> graph_make (pose_env groups) fs = Ok g -> assigns (pose_env groups) fs init val -> rotations groups fs val ->
  descends (pose_env groups) fs g (rotations groups fs) init val.
Proof. exact mean_descends. Qed.
Print Assumptions C89_descent.

Theorem C89_half_turns : forall groups fs val c, averaging groups fs -> rotations groups fs val -> cost_at (pose_env groups) fs val <= c -> short_of_half_turns groups fs c ->
  forall f, In f fs -> vnorm (residual_at (pose_env groups) val f) < PI.
Proof. exact mean_short_residuals. Qed.
Print Assumptions C89_half_turns.

Theorem C89_slope : forall groups fs g, averaging groups fs -> graph_make (pose_env groups) fs = Ok g -> exists K, 0 < K /\
  forall init val unroll, assigns (pose_env groups) fs init val -> same_layout (as_layout init) (g_layout g) -> rotations groups fs val ->
  (forall n, (1 <= n)%nat -> exists it, (1 <= it <= n)%nat /\ forall fuel, (it <= fuel)%nat -> exists a u,
     fixed_solve (pose_env groups) fuel unroll (Z.of_nat it) cholmod_solve g init = Some (Ok a) /\ assigns (pose_env groups) fs a u /\
     forall eta, tangent (pose_env groups) fs eta -> pull (pose_env groups) fs u eta * pull (pose_env groups) fs u eta <= K * cost_at (pose_env groups) fs val / INR n * inner fs eta eta) /\
  (forall eps, 0 < eps -> exists N, forall it fuel, (N <= it)%nat -> (1 <= it <= fuel)%nat -> exists a u,
     fixed_solve (pose_env groups) fuel unroll (Z.of_nat it) cholmod_solve g init = Some (Ok a) /\ assigns (pose_env groups) fs a u /\
     forall eta, tangent (pose_env groups) fs eta -> pull (pose_env groups) fs u eta * pull (pose_env groups) fs u eta <= eps * inner fs eta eta).
Proof. exact mean_slope. Qed.
Print Assumptions C89_slope.

Theorem C89_best_refuted : exists groups fs g init val b val' c c' r r', averaging groups fs /\ graph_make (pose_env groups) fs = Ok g /\
  assigns (pose_env groups) fs init val /\ rotations groups fs val /\ same_layout (as_layout init) (g_layout g) /\ stays (pose_env groups) fs g init val /\
  assigns (pose_env groups) fs b val' /\ rotations groups fs val' /\ compute_cost (pose_env groups) g init = Ok (c, r) /\ compute_cost (pose_env groups) g b = Ok (c', r') /\ c' < c.
Proof. exact best_fails. Qed.
Print Assumptions C89_best_refuted.

(* non-vacuity: a graph and a start where the solvers have work to do *)
Example C89_start : averaging ex_groups ex_tilt /\ (exists g a, graph_make (pose_env ex_groups) ex_tilt = Ok g /\ assigns (pose_env ex_groups) ex_tilt a (fun _ => group_value 3%nat [1; 0; 0; 0]) /\ same_layout (as_layout a) (g_layout g)) /\
  rotations ex_groups ex_tilt (fun _ => group_value 3%nat [1; 0; 0; 0]) /\ ~ balanced (pose_env ex_groups) ex_tilt (fun _ => group_value 3%nat [1; 0; 0; 0]).
Proof. exact tilt_start. Qed.

(* non-vacuity: planar and spatial rotations, priors and a between factor *)
Example C89_mixed : averaging ex_groups ex_mixed /\ between_make h1 h2 (facing 1%nat 2) (diag1 2) = Ok (mkFactor 1%nat [h1; h2] (diag1 2) [facing 1%nat 2]) /\
  (exists g, graph_make (pose_env ex_groups) ex_mixed = Ok g) /\ forall t, rotations ex_groups ex_mixed (fun v => if Nat.eqb (v_ty v) 3 then group_value 3%nat [1; 0; 0; 0] else facing 1%nat t).
Proof. exact ex_mixed_ok. Qed.

(* non-vacuity: a start cheap enough for the bound on the residuals *)
Example C89_short : averaging ex_groups ex_far /\ short_of_half_turns ex_groups ex_far (cost_at (pose_env ex_groups) ex_far (fun _ => group_value 3%nat [1; 0; 0; 0])).
Proof. exact near_short. Qed.
