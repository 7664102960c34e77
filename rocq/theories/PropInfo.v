(* Theorems C72: information matrices add up over factors; marginal covariances. *)
From Coq Require Import List Arith Bool Reals.
From Verif Require Import Num NumR Py Arr MLayout MAssign MNoise MSparse MFactor MGraph MCov MLie MPose SpecLayout SpecTree SpecAssign SpecGraph SpecSparse SpecNoise SpecDeriv SpecCov SpecLie SpecPose SpecInfo.
From Verif Require Import PInfo PExInfo.
Import ListNotations.
Local Open Scope R_scope.

Theorem C72_information_adds :
  forall (E : env R) fs g a val r, (forall f, In f fs -> factor_ok f) -> graph_make E fs = Ok g -> assigns E fs a val ->
  (forall f, In f fs -> linear_noise (f_noise f)) -> (forall f, In f fs -> jacobian_shape_ok E val f) ->
  length r = total residual_dim fs -> total residual_dim fs <> 0%nat ->
  exists A, compute_whitened_residual_jacobian E g a r = Ok A /\ coo_ok A /\ snd (m_shape A) = l_dim (g_local_layout g) /\
    forall x, length x = l_dim (g_local_layout g) ->
    exists ws, Forall2 (fun f w => whiten_residual (f_noise f)
        (slots_times (e_cls E) (g_local_layout g) x (residual_dim f) (f_vars f) (jacobians_at E val f)) = Ok w) fs ws /\
      quad (l_dim (g_local_layout g)) (gram A) x = vsum (map sumsq ws).
Proof. exact info_sum. Qed.
Print Assumptions C72_information_adds.

Theorem C72_more_factors :
  forall (E : env R) fs more g g' a val chol chol' S S',
  (forall f, In f (fs ++ more) -> factor_ok f) -> (forall f, In f (fs ++ more) -> linear_noise (f_noise f)) ->
  (forall f, In f (fs ++ more) -> residual_shape_ok E val f) -> (forall f, In f (fs ++ more) -> jacobian_shape_ok E val f) ->
  total residual_dim fs <> 0%nat -> mentioned (fs ++ more) = mentioned fs ->
  graph_make E fs = Ok g -> graph_make E (fs ++ more) = Ok g' -> assigns E fs a val ->
  recovered chol E g a S -> recovered chol' E g' a S' ->
  forall vs fuel, (forall v, In v vs -> In v (mentioned fs)) -> (2 * l_dim (g_local_layout g) + 1 <= fuel)%nat ->
  exists M M' ch ch', compute_marginal (e_cls E) S fuel vs [] = Ok (Some (M, ch)) /\
    compute_marginal (e_cls E) S' fuel vs [] = Ok (Some (M', ch')) /\
    forall x, quad (total (vldim (e_cls E)) vs) (ent M') x <= quad (total (vldim (e_cls E)) vs) (ent M) x.
Proof. exact more_factors. Qed.
Print Assumptions C72_more_factors.

Theorem C72_priors_fuse :
  forall groups chol inv v, planar (groups (v_ty v)) \/ spatial (groups (v_ty v)) ->
  forall sigmas fs g a val, Forall2 (prior_on groups chol inv v) sigmas fs -> fs <> [] ->
  graph_make (pose_env groups) fs = Ok g -> assigns (pose_env groups) fs a val ->
  forall chol' S fuel, recovered chol' (pose_env groups) g a S ->
  let k := lg_dim (groups (v_ty v)) in (2 * k + 1 <= fuel)%nat ->
  exists M ch, compute_marginal (lie_class groups) S fuel [v] [] = Ok (Some (M, ch)) /\ shaped k k M /\
    (exists oms, Forall2 (minverse k) sigmas oms) /\
    forall oms, Forall2 (minverse k) sigmas oms -> minverse k (msum oms) (ent M).
Proof. exact priors_fuse. Qed.
Print Assumptions C72_priors_fuse.

Theorem C72_repeated_prior :
  forall groups chol inv v, planar (groups (v_ty v)) \/ spatial (groups (v_ty v)) ->
  forall chol' sigma m fs g a val S fuel, Forall2 (prior_on groups chol inv v) (repeat sigma m) fs -> fs <> [] ->
  graph_make (pose_env groups) fs = Ok g -> assigns (pose_env groups) fs a val -> recovered chol' (pose_env groups) g a S ->
  let k := lg_dim (groups (v_ty v)) in (2 * k + 1 <= fuel)%nat ->
  exists M ch, compute_marginal (lie_class groups) S fuel [v] [] = Ok (Some (M, ch)) /\ shaped k k M /\
    forall i j, (i < k)%nat -> (j < k)%nat -> ent M i j = sigma i j / INR m.
Proof. exact repeated_prior. Qed.
Print Assumptions C72_repeated_prior.

(* one prior with covariance I / 9, then a second with covariance I / 16 and another mean *)
Example C72_example : exists g g' S S',
  Forall2 (prior_on se2_groups chol3 inv3 vp) [sigma_a; sigma_b] [prior_a; prior_b] /\
  (planar (se2_groups (v_ty vp)) \/ spatial (se2_groups (v_ty vp))) /\
  graph_make (pose_env se2_groups) [prior_a] = Ok g /\ graph_make (pose_env se2_groups) [prior_a; prior_b] = Ok g' /\
  assigns (pose_env se2_groups) [prior_a; prior_b] at_pose pose_there /\ mentioned [prior_a; prior_b] = mentioned [prior_a] /\
  recovered (fun _ => dcol 3) (pose_env se2_groups) g at_pose S /\ recovered (fun _ => dcol 5) (pose_env se2_groups) g' at_pose S' /\
  exists M M' ch ch', compute_marginal (lie_class se2_groups) S 7 [vp] [] = Ok (Some (M, ch)) /\
    compute_marginal (lie_class se2_groups) S' 7 [vp] [] = Ok (Some (M', ch')) /\
    forall i, (i < 3)%nat -> ent M i i = / 9 /\ ent M' i i = / 25.
Proof. exact ex_fused. Qed.
