(* C112: what one more factor does to the cost and to the result *)
From Coq Require Import List Arith Bool Reals ZArith.
From Verif Require Import Num NumR Py Arr MLayout MAssign MNoise MSparse MFactor MGraph MLinear MSolver SpecLayout SpecTree SpecAssign SpecGraph SpecSparse SpecSolver SpecOrder SpecInv SpecLin SpecGate Ex ExG ExS PExLin PExNear PExGate.
Import ListNotations.
Local Open Scope R_scope.

Theorem C112_bounds : forall (E : env R) fs f g g' z valz cz rz r m G,
  well_posed E fs -> well_posed E (fs ++ [f]) -> mentioned (fs ++ [f]) = mentioned fs -> graph_make E fs = Ok g -> graph_make E (fs ++ [f]) = Ok g' ->
  assigns E fs z valz -> compute_cost E g z = Ok (cz, rz) -> whitened_at E valz f = Ok r -> 0 < m -> 0 <= G -> grows_from E fs g m cz valz -> drifts_from E fs f G valz r ->
  (exists r0, compute_cost E g' z = Ok (cz + sumsq r, r0)) /\
  forall b valb c rb, assigns E (fs ++ [f]) b valb -> compute_cost E g' b = Ok (c, rb) ->
    cz + sumsq r * m / (m + G) <= c /\ (c <= cz + sumsq r -> gated fs m G cz valz r valb c).
Proof. exact gate_bounds. Qed.
Print Assumptions C112_bounds.

Theorem C112_restart : forall (E : env R) fs f g g' z valz cz rz r m G,
  well_posed E fs -> well_posed E (fs ++ [f]) -> mentioned (fs ++ [f]) = mentioned fs -> graph_make E fs = Ok g -> graph_make E (fs ++ [f]) = Ok g' ->
  assigns E fs z valz -> compute_cost E g z = Ok (cz, rz) -> whitened_at E valz f = Ok r -> 0 < m -> 0 <= G -> grows_from E fs g m cz valz -> drifts_from E fs f G valz r ->
  linear_problem E (fs ++ [f]) ->
  let good a' := exists val' c r', assigns E (fs ++ [f]) a' val' /\ compute_cost E g' a' = Ok (c, r') /\ gated fs m G cz valz r val' c in
  (forall cfg fuel a', gn_solve E fuel cfg cholmod_solve g' z = Some (Ok a') -> good a') /\
  (forall cfg fuel a', 0 <= lambda_initial cfg -> 1 <= lambda_factor cfg -> 0 <= lambda_min cfg -> lm_quality_min cfg <= 1 -> lm_solve E fuel cfg cholmod_solve g' z = Some (Ok a') -> good a') /\
  (forall cfg fuel a', 0 < radius_initial cfg -> dl_quality_min cfg <= 1 -> dl_solve E fuel cfg cholmod_solve g' z = Some (Ok a') -> good a') /\
  (forall fuel unroll it, same_layout (as_layout z) (g_layout g') -> (1 <= it)%Z -> (Z.to_nat it <= fuel)%nat -> exists a', fixed_solve E fuel unroll it cholmod_solve g' z = Some (Ok a') /\ good a').
Proof. exact gate_restart. Qed.
Print Assumptions C112_restart.

Theorem C112_sharp : forall m G n, 0 < m -> 0 < G -> 0 <= n -> exists (E : env R) fs f g g' z valz rz r b valb rb,
  well_posed E fs /\ well_posed E (fs ++ [f]) /\ mentioned (fs ++ [f]) = mentioned fs /\ graph_make E fs = Ok g /\ graph_make E (fs ++ [f]) = Ok g' /\
  assigns E fs z valz /\ compute_cost E g z = Ok (0, rz) /\ whitened_at E valz f = Ok r /\ vnorm r = n /\ grows_from E fs g m 0 valz /\ drifts_from E fs f G valz r /\
  assigns E (fs ++ [f]) b valb /\ compute_cost E g' b = Ok (0 + sumsq r * m / (m + G), rb).
Proof. exact gate_sharp. Qed.
Print Assumptions C112_sharp.

Theorem C112_flat_refuted : forall B, exists (E : env R) fs f g g' z valz rz r b rb, well_posed E fs /\ well_posed E (fs ++ [f]) /\ mentioned (fs ++ [f]) = mentioned fs /\
  graph_make E fs = Ok g /\ graph_make E (fs ++ [f]) = Ok g' /\ linear_problem E (fs ++ [f]) /\ is_minimum E fs g z valz 0 rz /\
  whitened_at E valz f = Ok r /\ B <= vnorm r /\ drifts_from E fs f 1 valz r /\
  assigns E (fs ++ [f]) b (two_of 5 7) /\ compute_cost E g' b = Ok (0, rb).
Proof. exact gate_flat. Qed.
Print Assumptions C112_flat_refuted.

(* non-vacuity: non-vacuity: x at 1, y two further, and a measurement that puts y at 7; m = 2/5, G = 1 *)
Example C112_example : exists g g' rz, well_posed exLE short_fs /\ well_posed exLE (short_fs ++ [anchor vy 7]) /\ mentioned (short_fs ++ [anchor vy 7]) = mentioned short_fs /\
  graph_make exLE short_fs = Ok g /\ graph_make exLE (short_fs ++ [anchor vy 7]) = Ok g' /\ assigns exLE short_fs (scalars [vx; vy] [1; 3]) (two_of 1 3) /\
  same_layout (as_layout (scalars [vx; vy] [1; 3])) (g_layout g') /\ compute_cost exLE g (scalars [vx; vy] [1; 3]) = Ok (0, rz) /\ whitened_at exLE (two_of 1 3) (anchor vy 7) = Ok [-4] /\
  grows_from exLE short_fs g (2/5) 0 (two_of 1 3) /\ drifts_from exLE short_fs (anchor vy 7) 1 (two_of 1 3) [-4] /\ linear_problem exLE (short_fs ++ [anchor vy 7]).
Proof. exact gate_example. Qed.
