(* Bundles and concrete instances for pose factors on SO(3) and SE(3). *)
From Coq Require Import List Arith Bool Lia Reals Lra ZArith.
From Verif Require Import Num NumR Py Arr MLayout MAssign MNoise MSparse MFactor MGraph MLie MPose SpecNoise SpecLayout SpecTree SpecAssign SpecLie SpecGraph SpecSparse SpecDeriv SpecPose SpecZero SpecSpatial.
From Verif Require Import PVec PLie PPose PFrame PZero PJacZero PSpatial PSpatial2 PSpatial3 PSpatial4 PExInv PExZero.
Import ListNotations.
Local Open Scope R_scope.

Lemma pose3_good raw p : spatial raw -> pose3 raw p -> sized_pose raw p /\ unit_pose raw p.
Proof. intros Hs (Hl & Hn). split; auto. split; auto. intros Hp. exfalso. eapply not_both; eauto. Qed.

Lemma spatial_zero : forall raw, spatial raw -> forall mu s a b, pose3 raw mu -> pose3 raw s -> pose3 raw a -> pose3 raw b ->
  (prior_residual raw mu a = vzero (lg_dim raw) <-> same_pose raw a mu) /\
  (between_residual raw s a b = vzero (lg_dim raw) <-> same_pose raw (lg_mul raw a s) b) /\
  (forall g, pose3 raw g -> between_residual raw s (lg_mul raw g a) (lg_mul raw g b) = between_residual raw s a b).
Proof.
  intros raw Hs mu s a b Hm Hs' Ha Hb. apply pose3_good in Hm, Hs', Ha, Hb; auto. destruct Hm, Hs', Ha, Hb.
  split; [apply prior_zero; auto; right; auto|]. split; [apply between_zero; auto; right; auto|].
  intros g (Lg & Hg). unfold between_residual. rewrite raw_cancel; auto. intros Hp. exfalso. eapply not_both; eauto.
Qed.
Lemma spatial_full_step : forall raw, spatial raw -> forall mu s a b, pose3 raw mu -> pose3 raw s -> pose3 raw a -> pose3 raw b ->
  same_pose raw (lie_retract raw a (prior_residual raw mu a)) mu /\
  same_pose raw (lie_retract raw b (between_residual raw s a b)) (lg_mul raw a s).
Proof.
  intros raw Hs mu s a b Hm Hs' Ha Hb. apply pose3_good in Hm, Hs', Ha, Hb; auto. split; [apply spatial_step | apply spatial_step_between]; auto.
Qed.
Lemma spatial_exact : forall raw, spatial raw -> forall mu x s a b d, pose3 raw mu -> pose3 raw x -> pose3 raw s -> pose3 raw a -> pose3 raw b ->
  same_pose raw x mu -> same_pose raw (lg_mul raw a s) b -> length d = lg_dim raw -> rotation_angle raw d < PI ->
  prior_residual raw mu (lie_retract raw x d) = mvec (nth 0 (prior_jacobians raw mu x) []) d /\
  between_residual raw s (lie_retract raw a d) b = mvec (nth 0 (between_jacobians raw s a b) []) d /\
  between_residual raw s a (lie_retract raw b d) = mvec (nth 1 (between_jacobians raw s a b) []) d.
Proof.
  intros raw Hs mu x s a b d Hm Hx Hs' Ha Hb E1 E2 Hd Hr. apply pose3_good in Hm, Hx, Hs', Ha, Hb; auto. cbn [prior_jacobians between_jacobians nth]. rewrite !neg_eye_mvec by auto.
  split; [apply spatial_exact_prior; auto|]. split; [|apply spatial_exact_b; auto]. rewrite (spatial_jacobian_a raw Hs s a b) by auto. apply spatial_exact_a; auto.
Qed.
(* at a half turn the residual depends on which of the two quaternions stores the rotation *)
Lemma quaternion_sign : exists p q, pose3 raw_so3 p /\ pose3 raw_so3 q /\ same_pose raw_so3 p q /\
  prior_residual raw_so3 p (lg_one raw_so3) <> prior_residual raw_so3 q (lg_one raw_so3).
Proof.
  exists [0; 0; 0; 1], (map Ropp [0; 0; 0; 1]). split; [split; [reflexivity|unfold norm4; cbn [nth]; ring]|]. split; [split; [reflexivity|unfold norm4; cbn [map nth]; ring]|].
  split. { right. split; [constructor|]. split; [|reflexivity]. cbn [firstn map]. lists; ring. }
  unfold prior_residual, rminus. cbn [lg_log lg_mul lg_inv lg_one raw_so3].
  replace (quat_mul (quat_conj [1; 0; 0; 0]) [0; 0; 0; 1]) with [0; 0; 0; 1] by (unfold quat_mul, quat_conj; cbn [nth]; lists; ring).
  replace (quat_mul (quat_conj [1; 0; 0; 0]) (map Ropp [0; 0; 0; 1])) with [0; 0; 0; -1] by (unfold quat_mul, quat_conj; cbn [nth map]; lists; ring).
  assert (L : forall z, z * z = 1 -> len3 [0; 0; z] = 1) by (intros z Hz; unfold len3; cbn [nth]; rewrite Hz; replace (0 * 0 + 0 * 0 + 1) with 1 by ring; apply sqrt_1).
  unfold quat_log. cbn [nth tl]. rewrite !L by ring. unfold quat_log_factor. destruct (Req_EM_T 1 0); [lra|]. destruct (Req_EM_T 0 0); [|contradiction].
  unfold vscale. cbn [map nmul NumR]. intros H. injection H as H. pose proof PI_RGT_0. lra.
Qed.

(* the bound on the angle is needed: a full turn leaves the residual at zero *)
Lemma full_turn : exists d, length d = 3%nat /\ rotation_angle raw_so3 d = 2 * PI /\
  prior_residual raw_so3 (lg_one raw_so3) (lie_retract raw_so3 (lg_one raw_so3) d) = vzero 3 /\ mvec (nth 0 (prior_jacobians raw_so3 (lg_one raw_so3) (lg_one raw_so3)) []) d <> vzero 3.
Proof.
  assert (L : len3 [0; 0; 2 * PI] = 2 * PI).
  { unfold len3. cbn [nth]. replace (0 * 0 + 0 * 0 + 2 * PI * (2 * PI)) with (2 * PI * (2 * PI)) by ring. apply sqrt_square. pose proof PI_RGT_0. lra. }
  exists [0; 0; 2 * PI]. split; [reflexivity|]. split; [exact L|]. split.
  - unfold prior_residual, rminus, lie_retract, rplus. cbn [lg_log lg_mul lg_inv lg_exp lg_one raw_so3]. rewrite quat_exp_form. cbn [nth].
    unfold ec, ek. rewrite !L. unfold half_sinc. destruct (Req_EM_T (2 * PI) 0); [pose proof PI_RGT_0; lra|]. replace (2 * PI / 2) with PI by field. rewrite cos_PI, sin_PI.
    match goal with |- quat_log ?q = _ => replace q with [-1; 0; 0; 0] end; [|unfold quat_mul, quat_conj; cbn [nth]; lists; field; pose proof PI_RGT_0; lra].
    unfold quat_log. cbn [nth tl]. unfold vscale, vzero. cbn. lists; ring.
  - cbn [prior_jacobians nth]. rewrite neg_eye_mvec by reflexivity. unfold vneg, vzero. cbn. intros H. injection H as _ _ H. pose proof PI_RGT_0. lra.
Qed.
(* away from zero residual the prior Jacobian is wrong even for rotations alone *)
Lemma so3_rotated : exists mu x d, pose3 raw_so3 mu /\ pose3 raw_so3 x /\ length d = 3%nat /\
  ~ vderiv (fun t => prior_residual raw_so3 mu (lie_retract raw_so3 x (vscale t d))) (mvec (nth 0 (prior_jacobians raw_so3 mu x) []) d).
Proof.
  exists [3 / 5; 0; 0; 4 / 5], [1; 0; 0; 0], [1; 0; 0]. split; [split; [reflexivity|unfold norm4; cbn [nth]; field]|]. split; [split; [reflexivity|unfold norm4; cbn [nth]; ring]|]. split; [reflexivity|].
  cbn [prior_jacobians nth]. rewrite neg_eye_mvec by reflexivity. intros (_ & H). specialize (H 1%nat).
  set (c := fun t => ec (vscale t [1; 0; 0])). set (k := fun t => ek (vscale t [1; 0; 0])).
  destruct (len_line_cont [1; 0; 0] eq_refl) as (L & L0).
  assert (Cc : cont0 c) by (apply (ec_cont (fun t => vscale t [1; 0; 0])); auto). assert (Ck : cont0 k) by (apply (ek_cont (fun t => vscale t [1; 0; 0])); auto).
  assert (c0 : c 0 = 1) by (apply (ec_0 (fun t => vscale t [1; 0; 0])); auto). assert (k0 : k 0 = 1 / 2) by (apply (ek_0 (fun t => vscale t [1; 0; 0])); auto).
  assert (Eq : forall t, quat_mul (quat_conj (quat_mul [1; 0; 0; 0] (quat_exp (vscale t [1; 0; 0])))) [3 / 5; 0; 0; 4 / 5] =
    [c t * (3 / 5); - (k t * t) * (3 / 5); k t * t * (4 / 5); c t * (4 / 5)]).
  { intros t. rewrite quat_exp_form, !nth_vscale. fold (c t) (k t). unfold quat_mul, quat_conj. cbn [nth]. lists; ring. }
  set (n := fun t => len3 [- (k t * t) * (3 / 5); k t * t * (4 / 5); c t * (4 / 5)]).
  assert (Cn : cont0 n) by (apply (len_cont (fun t => [- (k t * t) * (3 / 5); k t * t * (4 / 5); c t * (4 / 5)])); apply vcont_list3; unfold Rdiv; ct; auto).
  assert (n0' : n 0 = 4 / 5).
  { unfold n, len3. cbn [nth]. rewrite c0, k0. replace (- (1 / 2 * 0) * (3 / 5) * (- (1 / 2 * 0) * (3 / 5)) + 1 / 2 * 0 * (4 / 5) * (1 / 2 * 0 * (4 / 5)) + 1 * (4 / 5) * (1 * (4 / 5))) with (4 / 5 * (4 / 5)) by field.
    apply sqrt_square. lra. }
  set (G := fun t => 2 / (c t * (3 / 5)) * (atan (n t / (c t * (3 / 5))) / (n t / (c t * (3 / 5)))) * (k t * (4 / 5))).
  assert (CG : cont0 G).
  { assert (Cq : cont0 (fun t => n t / (c t * (3 / 5)))) by (unfold Rdiv; ct; auto; apply (cinv (fun t => c t * (3 * / 5))); [ct; auto | rewrite c0; lra]).
    unfold G. unfold Rdiv at 1 3. ct; auto; [apply (cinv (fun t => c t * (3 / 5))); [unfold Rdiv; ct; auto | rewrite c0; lra] | |].
    - apply (ccomp atan (fun t => n t / (c t * (3 / 5)))); auto. apply derivable_continuous_pt. exists (/ (1 + (n 0 / (c 0 * (3 / 5))) ^ 2)). apply derivable_pt_lim_atan.
    - apply (cinv (fun t => n t / (c t * (3 / 5)))); auto. rewrite n0', c0. lra. }
  assert (G0 : G 0 <> 0).
  { unfold G. rewrite n0', c0, k0. assert (Ha : atan 0 < atan (4 / 5 / (1 * (3 / 5)))) by (apply atan_increasing; lra). rewrite atan_0 in Ha. intros Hz.
    replace (2 / (1 * (3 / 5)) * (atan (4 / 5 / (1 * (3 / 5))) / (4 / 5 / (1 * (3 / 5)))) * (1 / 2 * (4 / 5))) with (atan (4 / 5 / (1 * (3 / 5)))) in Hz by (field; lra). lra. }
  apply G0. destruct (close c Cc (1 / 2)) as (e1 & He1 & H1); [lra|]. destruct (close n Cn (1 / 2)) as (e2 & He2 & H2); [lra|].
  apply (uniqueness_limite (fun t => t * G t) 0); [apply times_derivable; auto|].
  replace 0 with (nth 1 (vneg [1; 0; 0]) 0) at 2 by (cbn; ring).
  apply (derivable_local _ (fun t => nth 1 (prior_residual raw_so3 [3 / 5; 0; 0; 4 / 5] (lie_retract raw_so3 [1; 0; 0; 0] (vscale t [1; 0; 0]))) 0) _ (Rmin e1 e2)); [apply Rmin_glb_lt; auto| |exact H].
  intros t Ht. assert (T1 : Rabs t < e1) by (eapply Rlt_le_trans; [exact Ht|apply Rmin_l]). assert (T2 : Rabs t < e2) by (eapply Rlt_le_trans; [exact Ht|apply Rmin_r]).
  specialize (H1 t T1). specialize (H2 t T2). rewrite c0 in H1. rewrite n0' in H2. apply Rabs_def2 in H1, H2.
  unfold prior_residual, rminus, lie_retract, rplus. cbn [lg_log lg_mul lg_inv lg_exp raw_so3]. rewrite Eq. unfold quat_log. cbn [nth tl]. fold (n t).
  unfold quat_log_factor. destruct (Req_EM_T (n t) 0); [lra|]. destruct (Req_EM_T (c t * (3 / 5)) 0); [lra|]. unfold vscale. cbn [map nth nmul NumR]. unfold G. field. lra.
Qed.

(* a graph on SE(3): a prior whose mean is stored with the opposite quaternion, and a relative pose *)
Definition sa := mkVar 0%nat 2%nat. Definition sb := mkVar 1%nat 2%nat.
Definition dg6 : noise R := DiagGaussian (mkArr [6%nat] [1; 1; 1; 2; 2; 2]).
Definition ex_spatial : list (factor R) :=
  [prior_make sa (group_value 2%nat [- (3 / 5); 0; 0; - (4 / 5); 1; 2; 3]) dg6; mkFactor 1%nat [sa; sb] dg6 [group_value 2%nat [0; 1; 0; 0; 0; 0; 1]]].
Definition ex_sval (v : var) : pytree R := if eqb v sa then group_value 2%nat [3 / 5; 0; 0; 4 / 5; 1; 2; 3] else group_value 2%nat [0; 3 / 5; 4 / 5; 0; 1; 2; 4].
Definition ex_sstart : assign R := mkAssign [3 / 5; 0; 0; 4 / 5; 1; 2; 3; 0; 3 / 5; 4 / 5; 0; 1; 2; 4] (make_layout (lie_class ex_groups) [sa; sb] false).
Lemma ex_spatial_graph : (forall f, In f ex_spatial -> pose_factor ex_groups f /\ linear_noise (f_noise f) /\ unit_measurement ex_groups f /\ measured ex_groups ex_sval f) /\
  (forall v, In v (mentioned ex_spatial) -> spatial (ex_groups (v_ty v))) /\
  wf_assign (lie_class ex_groups) [sa; sb] false ex_sstart /\ (forall t, of_type t [sa; sb] = of_type t (mentioned ex_spatial)) /\
  (forall v, In v [sa; sb] -> get_value (lie_class ex_groups) ex_sstart v = Ok (ex_sval v) /\ unit_pose (ex_groups (v_ty v)) (params (ex_sval v))) /\
  total residual_dim ex_spatial = 12%nat /\ exists g, graph_make (pose_env ex_groups) ex_spatial = Ok g /\ l_dim (g_local_layout g) = 12%nat.
Proof.
  assert (Hu : forall p, norm4 p = 1 -> unit_pose raw_se3 p) by (intros p Hp; split; auto; intros H; exfalso; eapply not_both; [exact H|constructor]).
  split; [|split; [|split; [|split; [|split; [|split]]]]].
  - intros f [<-|[<-|[]]].
    + split; [|split; [|split]].
      * constructor; [|split; [reflexivity | exists 6%nat; reflexivity]|reflexivity]. eexists. split; reflexivity.
      * exact I.
      * intros v x [<-|[]] [<-|[]]. apply Hu. rewrite params_value. unfold norm4. cbn [nth]. field.
      * cbn. right. split; [constructor|]. split; [|reflexivity]. cbn. lists; ring.
    + split; [|split; [|split]].
      * apply (pf_between ex_groups sa sb (group_value 2%nat [0; 1; 0; 0; 0; 0; 1]) dg6); try reflexivity; [|split; [reflexivity | exists 6%nat; reflexivity]]. eexists. split; reflexivity.
      * exact I.
      * intros v x [<-|[<-|[]]] [<-|[]]; apply Hu; rewrite params_value; unfold norm4; cbn [nth]; field.
      * left. unfold ex_sval. cbn [eqb sa sb]. rewrite !params_value. cbn [lg_mul ex_groups v_ty sa raw_se3]. unfold se3_mul, quat_apply, quat_mul, quat_conj, rot_part, tra_part, vadd.
        cbn. lists; field.
  - intros v [<-|[<-|[]]]; constructor.
  - split; [repeat constructor; simpl; intuition discriminate | split; reflexivity].
  - intros t. reflexivity.
  - intros v Hin. destruct Hin as [<-|[<-|[]]]; (split; [reflexivity|]); apply Hu; unfold ex_sval; cbn; unfold norm4; cbn [nth]; field.
  - reflexivity.
  - eexists. split; reflexivity.
Qed.
Lemma ex_spatial_case : pose3 raw_se3 [3 / 5; 0; 0; 4 / 5; 1; 2; 3] /\ pose3 raw_se3 [- (3 / 5); 0; 0; - (4 / 5); 1; 2; 3] /\
  same_pose raw_se3 [3 / 5; 0; 0; 4 / 5; 1; 2; 3] [- (3 / 5); 0; 0; - (4 / 5); 1; 2; 3] /\
  pose3 raw_se3 [0; 1; 0; 0; 0; 0; 1] /\ pose3 raw_se3 [0; 3 / 5; 4 / 5; 0; 1; 2; 4] /\
  same_pose raw_se3 (lg_mul raw_se3 [3 / 5; 0; 0; 4 / 5; 1; 2; 3] [0; 1; 0; 0; 0; 0; 1]) [0; 3 / 5; 4 / 5; 0; 1; 2; 4] /\
  rotation_angle raw_se3 [5; 5; 5; 3; 0; 0] < PI.
Proof.
  repeat split; try reflexivity; try (unfold norm4; cbn [nth]; field).
  - right. split; [constructor|]. split; [|reflexivity]. cbn. lists; ring.
  - left. cbn [lg_mul raw_se3]. unfold se3_mul, quat_apply, quat_mul, quat_conj, rot_part, tra_part, vadd. cbn. lists; field.
  - unfold rotation_angle, len3. cbn. replace (3 * 3 + 0 * 0 + 0 * 0) with (3 * 3) by ring. rewrite sqrt_square by lra. pose proof PI2_3_2. unfold PI2 in *. lra.
Qed.
