(* C82: one pose with an outlier, with and without Huber loss. *)
From Coq Require Import List Arith Bool Reals ZArith.
From Verif Require Import Num NumR Py Arr MLayout MAssign MNoise MSparse MFactor MGraph MLinear MSolver MLie MPose SpecLayout SpecTree SpecAssign SpecGraph SpecSolver SpecLie SpecPose SpecOutlier PSolver2 PExOutlier.
Import ListNotations.
Local Open Scope R_scope.

Theorem C82_gaussian : forall groups v x y m fs, groups (v_ty v) = raw_se2 -> observations v m (seen_at v x y unit_noise) fs ->
  exists g init, graph_make (pose_env groups) fs = Ok g /\ make_from_defaults (lie_class groups) [v] = Ok init /\
  (forall unroll it fuel, (1 <= it)%Z -> (Z.to_nat it <= fuel)%nat ->
     exists a, fixed_solve (pose_env groups) fuel unroll it cholmod_solve g init = Some (Ok a) /\
       get_value (lie_class groups) a v = Ok (at_xy (v_ty v) (share_after m (Z.to_nat it) * x) (share_after m (Z.to_nat it) * y))) /\
  (forall cfg fuel, (iteration_cap (max_iterations cfg) <= fuel)%nat ->
     exists a k, gn_solve (pose_env groups) fuel cfg cholmod_solve g init = Some (Ok a) /\ (1 <= k <= iteration_cap (max_iterations cfg))%nat /\
       get_value (lie_class groups) a v = Ok (at_xy (v_ty v) (share_after m k * x) (share_after m k * y))).
Proof. exact gaussian_outlier. Qed.
Print Assumptions C82_gaussian.

Theorem C82_rest_point : forall m delta D, (1 <= m)%nat -> 0 < delta -> delta + delta / INR m <= D ->
  exists X, rest_point m delta D X /\ delta / INR m <= X /\ forall Y, rest_point m delta D Y -> Y = X.
Proof. exact rest_points. Qed.
Print Assumptions C82_rest_point.

Theorem C82_huber : forall groups v x y delta m fs X, groups (v_ty v) = raw_se2 -> (1 <= m)%nat -> 0 < delta ->
  rest_point m delta (vnorm [x; y]) X -> observations v m (seen_at v x y (huber_noise delta)) fs ->
  exists (travel : nat -> R) g init, graph_make (pose_env groups) fs = Ok g /\ make_from_defaults (lie_class groups) [v] = Ok init /\
  (forall k, (1 <= k)%nat -> 0 < travel k <= X /\ X - travel k <= X * ((1 + damping) / (INR m + 1 + damping)) ^ k) /\
  (forall unroll it fuel, (1 <= it)%Z -> (Z.to_nat it <= fuel)%nat ->
     exists a, fixed_solve (pose_env groups) fuel unroll it cholmod_solve g init = Some (Ok a) /\
       get_value (lie_class groups) a v = Ok (at_xy (v_ty v) (travel (Z.to_nat it) / vnorm [x; y] * x) (travel (Z.to_nat it) / vnorm [x; y] * y))) /\
  (forall cfg fuel, (iteration_cap (max_iterations cfg) <= fuel)%nat ->
     exists a k, gn_solve (pose_env groups) fuel cfg cholmod_solve g init = Some (Ok a) /\ (1 <= k <= iteration_cap (max_iterations cfg))%nat /\
       get_value (lie_class groups) a v = Ok (at_xy (v_ty v) (travel k / vnorm [x; y] * x) (travel k / vnorm [x; y] * y))).
Proof. exact huber_outliers. Qed.
Print Assumptions C82_huber.

Theorem C82_huber_beats_gaussian : forall groups v x y delta m fsh fsg c, groups (v_ty v) = raw_se2 -> (1 <= m)%nat -> 0 < delta -> 0 < c ->
  delta + delta / INR m <= vnorm [x; y] ->
  c ^ 4 * delta ^ 3 * (INR m + 1 + damping) ^ 4 <= INR m ^ 4 * vnorm [x; y] ^ 3 ->
  observations v m (seen_at v x y (huber_noise delta)) fsh -> observations v m (seen_at v x y unit_noise) fsg ->
  exists gh gg init, graph_make (pose_env groups) fsh = Ok gh /\ graph_make (pose_env groups) fsg = Ok gg /\ make_from_defaults (lie_class groups) [v] = Ok init /\
  forall cfg fuel, (iteration_cap (max_iterations cfg) <= fuel)%nat ->
  exists ah ag xh xg, gn_solve (pose_env groups) fuel cfg cholmod_solve gh init = Some (Ok ah) /\ gn_solve (pose_env groups) fuel cfg cholmod_solve gg init = Some (Ok ag) /\
    get_value (lie_class groups) ah v = Ok xh /\ get_value (lie_class groups) ag v = Ok xg /\
    pose_error xh < pose_error xg / c.
Proof. exact huber_beats_gauss. Qed.
Print Assumptions C82_huber_beats_gaussian.

Theorem C82_bounded_influence_refuted : forall m delta B, (1 <= m)%nat -> 0 < delta ->
  exists x, forall groups v fs, groups (v_ty v) = raw_se2 -> observations v m (seen_at v x 0 (huber_noise delta)) fs ->
  exists g init k0, graph_make (pose_env groups) fs = Ok g /\ make_from_defaults (lie_class groups) [v] = Ok init /\
  forall unroll it fuel, (1 <= it)%Z -> (k0 <= Z.to_nat it <= fuel)%nat ->
     exists a p, fixed_solve (pose_env groups) fuel unroll it cholmod_solve g init = Some (Ok a) /\ get_value (lie_class groups) a v = Ok p /\ B < pose_error p.
Proof. exact unbounded_influence. Qed.
Print Assumptions C82_bounded_influence_refuted.

(* non-vacuity: the graphs of tests/test_huber.py *)
Example C82_test_observations : forall n, observations pose0 2 (seen_at pose0 2000 200 n) (test_graph n).
Proof. exact test_observes. Qed.

(* non-vacuity: ... and their numbers *)
Example C82_test_numbers : let D := vnorm [2000; 200] in
  1 + 1 / INR 2 <= D /\ 100 ^ 4 * 1 ^ 3 * (INR 2 + 1 + damping) ^ 4 <= INR 2 ^ 4 * D ^ 3.
Proof. exact test_numbers. Qed.

(* non-vacuity: the assertion of tests/test_huber.py, for every limit on the iterations *)
Example C82_test_huber : let E := pose_env se2_everywhere in
  exists gh gg init, graph_make E (test_graph (huber_noise 1)) = Ok gh /\ graph_make E (test_graph unit_noise) = Ok gg /\
  make_from_defaults (lie_class se2_everywhere) [pose0] = Ok init /\
  forall cfg fuel, (iteration_cap (max_iterations cfg) <= fuel)%nat ->
  exists ah ag xh xg, gn_solve E fuel cfg cholmod_solve gh init = Some (Ok ah) /\ gn_solve E fuel cfg cholmod_solve gg init = Some (Ok ag) /\
    get_value (lie_class se2_everywhere) ah pose0 = Ok xh /\ get_value (lie_class se2_everywhere) ag pose0 = Ok xg /\
    pose_error xh < pose_error xg / 100.
Proof. exact test_huber. Qed.
