(* Theorems C44, C45: pose factors on Lie groups. *)
From Coq Require Import List Arith Reals.
From Verif Require Import Num NumR MLie SpecNoise SpecDeriv SpecLie PLie PExLie.
Import ListNotations.
Local Open Scope R_scope.

Theorem C44_zero_iff_consistent :
  forall (G : Type) (L : lie_ops R G), group_laws L -> log_faithful L ->
  (forall mu x, prior_residual L mu x = vzero (lg_dim L) <-> x = mu) /\
  (forall Tab a b, between_residual L Tab a b = vzero (lg_dim L) <-> lg_mul L a Tab = b).
Proof. exact @zero_iff. Qed.
Print Assumptions C44_zero_iff_consistent.

Theorem C44_gauge_free :
  forall (G : Type) (L : lie_ops R G), group_laws L -> forall Tab g a b,
  between_residual L Tab (lg_mul L g a) (lg_mul L g b) = between_residual L Tab a b.
Proof. exact @gauge_free. Qed.
Print Assumptions C44_gauge_free.

Theorem C44_formulas :
  forall (G : Type) (L : lie_ops R G), group_laws L -> forall Tab mu a b,
  prior_residual L mu a = lg_log L (lg_mul L (lg_inv L a) mu) /\
  between_residual L Tab a b = lg_log L (lg_mul L (lg_mul L (lg_inv L b) a) Tab).
Proof. exact @formulas. Qed.
Print Assumptions C44_formulas.

Theorem C44_full_step :
  forall (G : Type) (L : lie_ops R G) near, lie_laws L near -> forall Tab mu a b,
  lie_retract L a (prior_residual L mu a) = mu /\
  lie_retract L b (between_residual L Tab a b) = lg_mul L a Tab.
Proof. exact @full_step. Qed.
Print Assumptions C44_full_step.

Example C44_example : lie_laws SE2 near_se2 /\ lie_laws SO2 near_so2 /\ log_faithful SE2 /\ log_faithful SO2.
Proof. exact groups. Qed.

Theorem C45_exact_at_zero_residual :
  forall (G : Type) (L : lie_ops R G) near, lie_laws L near -> forall Tab mu a d, length d = lg_dim L ->
  (near (vneg d) -> prior_residual L mu (lie_retract L mu d) = mvec (nth 0 (prior_jacobians L mu mu) []) d) /\
  (near (mvec (lg_adj L (lg_inv L Tab)) d) ->
     between_residual L Tab (lie_retract L a d) (lg_mul L a Tab) = mvec (nth 0 (between_jacobians L Tab a (lg_mul L a Tab)) []) d) /\
  (near (vneg d) ->
     between_residual L Tab a (lie_retract L (lg_mul L a Tab) d) = mvec (nth 1 (between_jacobians L Tab a (lg_mul L a Tab)) []) d).
Proof. exact @exact_at_zero. Qed.
Print Assumptions C45_exact_at_zero_residual.

Theorem C45_derivative_at_zero_residual :
  forall (G : Type) (L : lie_ops R G) near, lie_laws L near -> forall Tab mu a d, length d = lg_dim L ->
  vderiv (fun t => prior_residual L mu (lie_retract L mu (vscale t d))) (mvec (nth 0 (prior_jacobians L mu mu) []) d) /\
  vderiv (fun t => between_residual L Tab (lie_retract L a (vscale t d)) (lg_mul L a Tab))
         (mvec (nth 0 (between_jacobians L Tab a (lg_mul L a Tab)) []) d) /\
  vderiv (fun t => between_residual L Tab a (lie_retract L (lg_mul L a Tab) (vscale t d)))
         (mvec (nth 1 (between_jacobians L Tab a (lg_mul L a Tab)) []) d).
Proof. exact @derivative_at_zero. Qed.
Print Assumptions C45_derivative_at_zero_residual.

Theorem C45_so2_everywhere :
  forall mu x d, length d = 1%nat -> angle (rot_mul (rot_inv x) mu) <> PI ->
  vderiv (fun t => prior_residual SO2 mu (lie_retract SO2 x (vscale t d))) (mvec (nth 0 (prior_jacobians SO2 mu x) []) d).
Proof. exact so2_derivative. Qed.
Print Assumptions C45_so2_everywhere.

Theorem C45_se2_exactly_when_unrotated :
  forall mu x : pose,
  vderiv (fun s => prior_residual SE2 mu (lie_retract SE2 x (vscale s [1; 0; 0]))) (mvec (nth 0 (prior_jacobians SE2 mu x) []) [1; 0; 0])
  <-> pr x = pr mu.
Proof. exact se2_jacobian_iff. Qed.
Print Assumptions C45_se2_exactly_when_unrotated.

Theorem C45_prior_jacobian_everywhere_refuted :
  exists mu x : pose, exists d : list R, length d = 3%nat /\
  ~ vderiv (fun t => prior_residual SE2 mu (lie_retract SE2 x (vscale t d))) (mvec (nth 0 (prior_jacobians SE2 mu x) []) d).
Proof. exact rotated_wrong. Qed.
Print Assumptions C45_prior_jacobian_everywhere_refuted.
