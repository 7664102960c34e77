(* C111: the pull of one more factor *)
From Coq Require Import List Arith Bool Reals ZArith.
From Verif Require Import Num NumR Py Arr MLayout MAssign MNoise MSparse MFactor MGraph MLinear MSolver SpecLayout SpecTree SpecAssign SpecGraph SpecSparse SpecNoise SpecDeriv SpecOrder SpecInv SpecSolver SpecTwin SpecBook SpecLin SpecLocal SpecPull Ex ExG ExS PExLoss PExPull.
Import ListNotations.
Local Open Scope R_scope.

Theorem C111_pull : forall (E : env R) fs f g g' s s' val step step' w r m G p q,
  well_posed E fs -> well_posed E (fs ++ [f]) -> mentioned (fs ++ [f]) = mentioned fs -> graph_make E fs = Ok g -> graph_make E (fs ++ [f]) = Ok g' ->
  carries E fs g s val val -> carries E (fs ++ [f]) g' s' val val ->
  gauss_newton_iteration E g cholmod_solve step -> gauss_newton_iteration E g' cholmod_solve step' ->
  whiten_residual w (residual_at E val f) = Ok r -> pulls (f_noise f) w (vnorm r) p q ->
  0 <= m -> 0 <= G -> stiff E fs val m -> reach E fs f w val G ->
  exists s1 s1' val1 val1' xi xi', step s = Ok s1 /\ step' s' = Ok s1' /\ carries E fs g s1 val1 val1 /\ carries E (fs ++ [f]) g' s1' val1' val1' /\
    tangent E fs xi /\ tangent E fs xi' /\ moved E fs val xi val1 /\ moved E fs val xi' val1' /\
    (m + 1 / 100000) * size fs (gap xi xi') <= sqrt G * (p + q * (sqrt G * size fs xi)).
Proof. exact pull_bound. Qed.
Print Assumptions C111_pull.

Theorem C111_bounded_pull_refuted : forall B, exists k g g' s s' r, 1 <= k /\
  well_posed exSE pinned /\ well_posed exSE (pinned ++ [yank k]) /\ mentioned (pinned ++ [yank k]) = mentioned pinned /\ graph_make exSE pinned = Ok g /\ graph_make exSE (pinned ++ [yank k]) = Ok g' /\
  carries exSE pinned g s held held /\ carries exSE (pinned ++ [yank k]) g' s' held held /\
  f_noise (yank k) = Huber (DiagGaussian (mkArr [1%nat] [1])) (scal 1) /\ whiten_residual (DiagGaussian (mkArr [1%nat] [1])) (residual_at exSE held (yank k)) = Ok r /\
  pulls (f_noise (yank k)) (DiagGaussian (mkArr [1%nat] [1])) (vnorm r) (1 * sqrt (sqrt (vnorm r / 1))) (sqrt (1 / vnorm r)) /\
  stiff exSE pinned held 1 /\ reach exSE pinned (yank k) (DiagGaussian (mkArr [1%nat] [1])) held 1 /\
  forall step step', gauss_newton_iteration exSE g cholmod_solve step -> gauss_newton_iteration exSE g' cholmod_solve step' ->
  exists s1 s1' val1 val1' x, step s = Ok s1 /\ step' s' = Ok s1' /\ carries exSE pinned g s1 val1 val1 /\ carries exSE (pinned ++ [yank k]) g' s1' val1' val1' /\
    val1 vx = leaf1 [0] /\ val1' vx = leaf1 [x] /\ B <= x.
Proof. exact pull_grows. Qed.
Print Assumptions C111_bounded_pull_refuted.

(* non-vacuity: x pinned to 0, and a Huber factor with threshold 1 pulling it to 16 *)
Example C111_example : exists g g' s s' r, well_posed exSE pinned /\ well_posed exSE (pinned ++ [yank 2]) /\ mentioned (pinned ++ [yank 2]) = mentioned pinned /\
  graph_make exSE pinned = Ok g /\ graph_make exSE (pinned ++ [yank 2]) = Ok g' /\ carries exSE pinned g s held held /\ carries exSE (pinned ++ [yank 2]) g' s' held held /\
  gauss_newton_iteration exSE g cholmod_solve (gn_step exSE (term_default 100) cholmod_solve g) /\ gauss_newton_iteration exSE g' cholmod_solve (fixed_step exSE 10 cholmod_solve g') /\
  whiten_residual (DiagGaussian (mkArr [1%nat] [1])) (residual_at exSE held (yank 2)) = Ok r /\ vnorm r = 16 /\ pulls (f_noise (yank 2)) (DiagGaussian (mkArr [1%nat] [1])) (vnorm r) 2 (1/4) /\
  stiff exSE pinned held 1 /\ reach exSE pinned (yank 2) (DiagGaussian (mkArr [1%nat] [1])) held 1.
Proof. exact ex_pull. Qed.
