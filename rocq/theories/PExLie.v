(* Bundles and concrete instances for the Lie group theorems. *)
From Coq Require Import List Arith Reals Lra.
From Verif Require Import Num NumR MLie SpecNoise SpecDeriv SpecLie PVec PLie.
Import ListNotations.
Local Open Scope R_scope.

Lemma zero_iff (G : Type) (L : lie_ops R G) : group_laws L -> log_faithful L ->
  (forall mu x, prior_residual L mu x = vzero (lg_dim L) <-> x = mu) /\
  (forall Tab a b, between_residual L Tab a b = vzero (lg_dim L) <-> lg_mul L a Tab = b).
Proof. intros HG HF. split; intros; [apply prior_zero_iff | apply between_zero_iff]; auto. Qed.

Lemma gauge_free (G : Type) (L : lie_ops R G) : group_laws L -> forall Tab g a b,
  between_residual L Tab (lg_mul L g a) (lg_mul L g b) = between_residual L Tab a b.
Proof. intros HG. apply (between_gauge L HG). Qed.

Lemma formulas (G : Type) (L : lie_ops R G) : group_laws L -> forall Tab mu a b,
  prior_residual L mu a = lg_log L (lg_mul L (lg_inv L a) mu) /\
  between_residual L Tab a b = lg_log L (lg_mul L (lg_mul L (lg_inv L b) a) Tab).
Proof. intros HG. split; [reflexivity | apply (between_formula L HG)]. Qed.

Lemma full_step (G : Type) (L : lie_ops R G) near : lie_laws L near -> forall Tab mu a b,
  lie_retract L a (prior_residual L mu a) = mu /\
  lie_retract L b (between_residual L Tab a b) = lg_mul L a Tab.
Proof. intros HL Tab mu a b. split; [apply (step_prior L near HL) | apply (step_between L near HL)]. Qed.

Lemma exact_at_zero (G : Type) (L : lie_ops R G) near : lie_laws L near -> forall Tab mu a d, length d = lg_dim L ->
  (near (vneg d) -> prior_residual L mu (lie_retract L mu d) = mvec (nth 0 (prior_jacobians L mu mu) []) d) /\
  (near (mvec (lg_adj L (lg_inv L Tab)) d) ->
     between_residual L Tab (lie_retract L a d) (lg_mul L a Tab) = mvec (nth 0 (between_jacobians L Tab a (lg_mul L a Tab)) []) d) /\
  (near (vneg d) ->
     between_residual L Tab a (lie_retract L (lg_mul L a Tab) d) = mvec (nth 1 (between_jacobians L Tab a (lg_mul L a Tab)) []) d).
Proof.
  intros HL Tab mu a d Hd. repeat split; intros Hn.
  - pose proof (prior_linear L near HL mu d Hd Hn) as H. cbn [prior_jacobians map] in *. injection H as H. exact H.
  - apply (between_linear_a L near HL); auto.
  - apply (between_linear_b L near HL); auto.
Qed.

Lemma derivative_at_zero (G : Type) (L : lie_ops R G) near : lie_laws L near -> forall Tab mu a d, length d = lg_dim L ->
  vderiv (fun t => prior_residual L mu (lie_retract L mu (vscale t d))) (mvec (nth 0 (prior_jacobians L mu mu) []) d) /\
  vderiv (fun t => between_residual L Tab (lie_retract L a (vscale t d)) (lg_mul L a Tab))
         (mvec (nth 0 (between_jacobians L Tab a (lg_mul L a Tab)) []) d) /\
  vderiv (fun t => between_residual L Tab a (lie_retract L (lg_mul L a Tab) (vscale t d)))
         (mvec (nth 1 (between_jacobians L Tab a (lg_mul L a Tab)) []) d).
Proof.
  intros HL Tab mu a d Hd. split; [|split].
  - apply (prior_derivative L near HL); auto.
  - apply (between_derivative_a L near HL); auto.
  - apply (between_derivative_b L near HL); auto.
Qed.

Lemma rotated_wrong : exists mu x : pose, exists d : list R, length d = 3%nat /\
  ~ vderiv (fun t => prior_residual SE2 mu (lie_retract SE2 x (vscale t d))) (mvec (nth 0 (prior_jacobians SE2 mu x) []) d).
Proof.
  exists (mkPose (rot_exp (PI / 2)) 0 0), pose_one, [1; 0; 0]. split; [reflexivity|].
  rewrite se2_jacobian_iff. cbn. intros H. apply (f_equal rc) in H. cbn in H. rewrite cos_PI2 in H. lra.
Qed.

Lemma groups : lie_laws SE2 near_se2 /\ lie_laws SO2 near_so2 /\ log_faithful SE2 /\ log_faithful SO2.
Proof.
  split; [exact se2_laws|]. split; [exact so2_laws|]. split; [exact (laws_faithful SE2 near_se2 se2_laws) | exact (laws_faithful SO2 near_so2 so2_laws)].
Qed.
