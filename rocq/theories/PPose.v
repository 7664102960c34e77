(* Facts about pose variables. *)
From Coq Require Import List Arith Bool Lia Reals Lra.
From Verif Require Import Num NumR Py Arr MLayout MAssign MNoise MSparse MFactor MGraph MLinear MSolver MLie MPose SpecLayout SpecTree SpecAssign SpecGraph SpecLie SpecOrder SpecInv SpecPose.
From Verif Require Import PBase PLayout PTree PVec PLie.
Import ListNotations.
Local Open Scope R_scope.

Lemma atan2_unit (a : rot) : atan2 (rs a) (rc a) = angle a.
Proof.
  unfold atan2, angle. rewrite (r_unit a), sqrt_1. destruct (Req_EM_T 1 0); [lra|].
  replace (rc a / 1) with (rc a) by field. auto.
Qed.

Lemma so2_represented : represents rot_params raw_so2 SO2.
Proof.
  constructor; cbn; auto; try (intros; unfold rot_params; cbn; auto).
  rewrite <- atan2_unit. auto.
Qed.
Lemma se2_represented : represents pose_params raw_se2 SE2.
Proof.
  constructor; cbn; auto; try (intros; unfold pose_params; cbn; auto).
  unfold se2_log, pose_log. rewrite <- atan2_unit. auto.
Qed.

(* ---- the norm of the rotation parameters ---- *)
Lemma cs_one t : cos t * cos t + sin t * sin t = 1. Proof. apply rot_exp_unit. Qed.

Lemma planar_norm raw x d : planar raw -> norm2 (lie_retract raw x d) = norm2 x.
Proof.
  intros H. assert (Hm : forall a b c s, (a * c - b * s) * (a * c - b * s) + (b * c + a * s) * (b * c + a * s) = (a * a + b * b) * (c * c + s * s)) by (intros; ring).
  destruct H; unfold norm2, lie_retract, rplus; cbn [lg_mul lg_exp raw_so2 raw_se2]; unfold so2_mul, se2_mul, so2_exp, se2_exp; cbn [nth]; rewrite Hm, cs_one; ring.
Qed.
Lemma quat_norm a b : norm4 (quat_mul a b) = norm4 a * norm4 b.
Proof. unfold norm4, quat_mul. cbn [nth]. ring. Qed.
Lemma len3_sqr d : len3 d * len3 d = d.[0] * d.[0] + d.[1] * d.[1] + d.[2] * d.[2].
Proof. unfold len3. apply sqrt_sqrt. nra. Qed.
Lemma quat_exp_norm d : norm4 (quat_exp d) = 1.
Proof.
  unfold norm4, quat_exp. cbn [nth]. pose proof (len3_sqr d) as Hl. set (t := len3 d) in *.
  replace (cos (t / 2) * cos (t / 2) + half_sinc t * d.[0] * (half_sinc t * d.[0]) + half_sinc t * d.[1] * (half_sinc t * d.[1]) + half_sinc t * d.[2] * (half_sinc t * d.[2]))
    with (cos (t / 2) * cos (t / 2) + half_sinc t * half_sinc t * (t * t)) by (rewrite Hl; ring).
  unfold half_sinc. destruct (Req_EM_T t 0) as [->|Ht].
  - replace (0 / 2) with 0 by field. rewrite cos_0. field.
  - rewrite <- (cs_one (t / 2)). field. auto.
Qed.
Lemma norm4_rot x y : norm4 (quat_mul (rot_part x) (rot_part y)) = norm4 x * norm4 y.
Proof. rewrite quat_norm. unfold norm4, rot_part. cbn [nth]. ring. Qed.
Lemma norm4_app x y : length x = 4%nat -> norm4 (x ++ y) = norm4 x.
Proof. intros H. do 4 (destruct x as [|? x]; [discriminate|]). reflexivity. Qed.
Lemma spatial_norm raw x d : spatial raw -> norm4 (lie_retract raw x d) = norm4 x.
Proof.
  intros H. destruct H; unfold lie_retract, rplus; cbn [lg_mul lg_exp raw_so3 raw_se3].
  - rewrite quat_norm, quat_exp_norm. ring.
  - unfold se3_mul. rewrite norm4_app by reflexivity. rewrite norm4_rot. unfold se3_exp. rewrite norm4_app by reflexivity.
    rewrite quat_exp_norm. ring.
Qed.
Lemma retract_dim raw x d : planar raw \/ spatial raw -> length (lie_retract raw x d) = length (lg_one raw).
Proof.
  intros [[]|[]]; auto.
Qed.

(* ---- pose values ---- *)
Section Values.
Variable groups : vty -> lie_ops R (list R).

Lemma params_value t (p : list R) : params (group_value t p) = p.
Proof. unfold params, group_value, ravel. cbn. apply app_nil_r. Qed.

Lemma pose_value_ok t x : pose_value groups t x <-> value_ok (lie_class groups t) x.
Proof.
  unfold pose_value, value_ok, lie_class. cbn [vc_default]. unfold lie_default. split.
  - intros (p & -> & Hl). split.
    + unfold tree_ok. cbn. constructor; [|constructor]. unfold arr_ok. cbn. rewrite Nat.mul_1_r. apply Nat.eqb_refl.
    + split; auto. cbn. rewrite Hl. auto.
  - intros (H1 & H2 & H3). destruct x as [a|tag [|[a|? ?] [|? ?]]]; try discriminate.
    cbn in H2, H3. injection H2 as ->. injection H3 as H3. unfold tree_ok in H1. cbn in H1. inversion H1 as [|? ? Ha _]; subst.
    destruct a as [sh da]. cbn in H3. subst sh. unfold arr_ok in Ha. cbn in Ha. rewrite Nat.mul_1_r in Ha. apply Nat.eqb_eq in Ha.
    exists da. split; auto. unfold group_value. rewrite Ha. auto.
Qed.

Lemma pose_classes : classes_ok (lie_class groups).
Proof. intros t. apply (pose_value_ok t). exists (lg_one (groups t)). auto. Qed.

Definition known (t : vty) : Prop := planar (groups t) \/ spatial (groups t).

Lemma norms_preserved fs (rho2 rho4 : var -> R) :
  (forall v, In v (mentioned fs) -> known (v_ty v)) ->
  preserved (pose_env groups) fs (fun v x =>
    (planar (groups (v_ty v)) -> norm2 (params x) = rho2 v) /\ (spatial (groups (v_ty v)) -> norm4 (params x) = rho4 v)).
Proof.
  intros Hk v x d Hin Hx (H2 & H4) Hd. cbn [e_cls pose_env] in *.
  exists (group_value (v_ty v) (lie_retract (groups (v_ty v)) (params x) d)). split; auto. split.
  - apply pose_value_ok. eexists. split; [reflexivity|]. apply retract_dim. apply Hk; auto.
  - rewrite params_value. split; intros H.
    + rewrite planar_norm; auto.
    + rewrite spatial_norm; auto.
Qed.

(* ---- pose graphs are well posed ---- *)
Lemma log_length t x : known t -> length (lg_log (groups t) x) = lg_dim (groups t).
Proof.
  intros [H|H]; destruct H; auto. cbn -[se3_log]. unfold se3_log. rewrite app_length. destruct (Req_EM_T _ _); reflexivity.
Qed.
Lemma adj_shape t x : known t -> length (lg_adj (groups t) x) = lg_dim (groups t) /\ Forall (fun row => length row = lg_dim (groups t)) (lg_adj (groups t) x).
Proof. intros [H|H]; destruct H; (split; [reflexivity | repeat (constructor; [reflexivity|]); constructor]). Qed.
Lemma neg_eye_shape n : length (neg_eye (T := R) n) = n /\ Forall (fun row => length row = n) (neg_eye (T := R) n).
Proof.
  unfold neg_eye. split; [rewrite map_length, seq_length; auto|]. apply Forall_forall. intros row Hin.
  apply in_map_iff in Hin. destruct Hin as (i & <- & _). unfold eye_row. rewrite map_length, seq_length. auto.
Qed.
Lemma dim_pos t : known t -> lg_dim (groups t) <> 0%nat /\ length (lg_one (groups t)) <> 0%nat.
Proof. intros [H|H]; destruct H; split; discriminate. Qed.

Lemma between_inv va vb (Tab : pytree R) n f : between_make va vb Tab n = Ok f -> v_ty va = v_ty vb /\ f = mkFactor 1 [va; vb] n [Tab].
Proof.
  unfold between_make. destruct (Nat.eqb (v_ty va) (v_ty vb)) eqn:E1; cbn [assert_ bind]; [|discriminate].
  apply Nat.eqb_eq in E1. destruct Tab as [|tag cs]; cbn [assert_ bind]; [discriminate|].
  destruct (Nat.eqb (v_ty va) tag); cbn [assert_ bind]; [|discriminate]. intros H. injection H as <-. auto.
Qed.

Section Graph.
Variable fs : list (factor R).
Hypothesis Hfs : forall f, In f fs -> pose_factor groups f.
Hypothesis Hk : forall v, In v (mentioned fs) -> known (v_ty v).

Lemma in_mentioned f v : In f fs -> In v (f_vars f) -> In v (mentioned fs).
Proof. intros Hf Hv. unfold mentioned. apply firsts_in. apply in_flat_map. eauto. Qed.

Lemma pose_shaped : well_shaped (pose_env groups) fs.
Proof.
  split.
  - intros val f Hv Hf. unfold residual_shape_ok, residual_at. destruct (Hfs f Hf) as [v mu n Hm Hn Hd|va vb Tab n h Hb Hm Hn Hd].
    + cbn. unfold prior_residual, rminus. rewrite log_length by (apply Hk, (in_mentioned _ v Hf); cbn; auto). auto.
    + apply between_inv in Hb. destruct Hb as (Ht & ->). cbn. unfold between_residual, rminus.
      rewrite log_length by (apply Hk, (in_mentioned _ va Hf); cbn; auto). auto.
  - intros val f Hv Hf. unfold jacobian_shape_ok, jacobians_at. destruct (Hfs f Hf) as [v mu n Hm Hn Hd|va vb Tab n h Hb Hm Hn Hd].
    + cbn [prior_make f_vars anonymize map e_jac pose_env]. unfold pose_jacobians. cbn [fd_cls fd_types fd_params anonymize prior_make f_cls f_vars f_params map].
      unfold prior_jacobians. constructor; [|constructor]. unfold residual_dim. cbn [prior_make f_noise]. rewrite Hd.
      destruct (neg_eye_shape (lg_dim (groups (v_ty v)))). split; auto.
    + apply between_inv in Hb. destruct Hb as (Ht & ->). cbn [f_vars anonymize map e_jac pose_env]. unfold pose_jacobians.
      cbn [fd_cls fd_types fd_params anonymize f_cls f_vars f_params map]. unfold between_jacobians. unfold residual_dim. cbn [f_noise]. rewrite Hd.
      constructor; [|constructor; [|constructor]].
      * apply adj_shape. apply Hk, (in_mentioned _ va Hf); cbn; auto.
      * unfold vldim. rewrite <- Ht. apply neg_eye_shape.
  - intros v x d Hin Hx Hd. cbn [e_cls pose_env] in *. eexists. split; [reflexivity|]. apply pose_value_ok. eexists. split; [reflexivity|].
    apply retract_dim. apply Hk; auto.
Qed.

Lemma pose_factor_ok f : pose_factor groups f -> factor_ok f.
Proof.
  intros [v mu n Hm Hn Hd|va vb Tab n h Hb Hm Hn Hd].
  - split; auto. constructor; [|constructor]. apply pose_value_ok in Hm. apply Hm.
  - apply between_inv in Hb. destruct Hb as (_ & ->). split; auto. constructor; [|constructor]. apply pose_value_ok in Hm. apply Hm.
Qed.

Lemma pose_posed : fs <> [] -> well_posed (pose_env groups) fs.
Proof.
  intros Hne. destruct fs as [|f l] eqn:Ef; [contradiction|]. assert (Hf : In f fs) by (rewrite Ef; left; auto). rewrite <- Ef in *.
  assert (Hv : exists v, In v (f_vars f) /\ residual_dim f = lg_dim (groups (v_ty v))).
  { destruct (Hfs f Hf) as [v mu n Hm Hn Hd|va vb Tab n h Hb Hm Hn Hd].
    - exists v. split; [left|]; auto.
    - apply between_inv in Hb. destruct Hb as (_ & ->). exists va. split; [left|]; auto. }
  destruct Hv as (v & Hv & Hd). pose proof (in_mentioned f v Hf Hv) as Hm. destruct (dim_pos _ (Hk v Hm)) as (H1 & H2). split.
  - apply pose_classes.
  - intros h Hh. apply pose_factor_ok; auto.
  - apply pose_shaped.
  - exists f. split; auto. rewrite Hd. auto.
  - exists v. split; auto. cbn. unfold vpdim, param_dim. cbn. rewrite app_nil_r. auto.
Qed.
End Graph.
End Values.
