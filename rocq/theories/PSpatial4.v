(* Proofs: residuals of pose factors on SO(3) and SE(3); where the measurements of a pose graph
   hold, the Jacobian of the graph is the derivative of its residual along retractions of all
   variables at once. *)
From Coq Require Import List Arith Bool Lia Reals Lra ZArith.
From Verif Require Import Num NumR Py Arr MLayout MAssign MNoise MSparse MFactor MGraph MLie MPose SpecNoise SpecLayout SpecTree SpecAssign SpecLie SpecGraph SpecSparse SpecDeriv SpecPose SpecZero SpecSpatial.
From Verif Require Import PBase PVec PLayout PAssign PGraph PGraph4 PHold PNoise PGraph2 PDeriv PExGraph PLie PExLie PPose PFrame PZero PJacZero PSpatial PSpatial2 PSpatial3.
Import ListNotations.
Local Open Scope R_scope.

Section Spatial.
Variable raw : lie_ops R (list R).
Hypothesis Hs : spatial raw.
Let Hk : known raw := or_intror Hs.
Notation "a ** b" := (lg_mul raw a b) (at level 40, left associativity).
Notation "a ^-" := (lg_inv raw a) (at level 2, format "a ^-").
Notation "p ~~ q" := (same_pose raw p q) (at level 70).
Notation good p := (sized_pose raw p /\ unit_pose raw p).

(* the residual as a full step brings the estimate to the measurement *)
Lemma spatial_step mu x : good mu -> good x -> lie_retract raw x (prior_residual raw mu x) ~~ mu.
Proof.
  intros (Lm & Um) (Lx & Ux). unfold lie_retract, rplus, prior_residual, rminus.
  assert (Lq : sized_pose raw (x^- ** mu)) by (apply sized_mul; auto). assert (Uq : unit_pose raw (x^- ** mu)) by (apply unit_mul; auto; apply unit_inv; auto).
  rewrite <- (cancel_right raw x mu) at 2 by auto. apply same_mul; auto; [apply sized_exp; auto | apply exp_log; auto].
Qed.
Lemma spatial_step_between s a b : good s -> good a -> good b -> lie_retract raw b (between_residual raw s a b) ~~ (a ** s).
Proof.
  intros (Ls & Us) (La & Ua) (Lb & Ub). unfold lie_retract, rplus, between_residual, rminus.
  assert (Ui : unit_pose raw (a^-)) by (apply unit_inv; auto).
  assert (E : (a^- ** b)^- = b^- ** a) by (rewrite inv_of_mul by auto; rewrite inv_of_inv; auto).
  rewrite E. apply same_trans with (b ** (b^- ** a ** s)).
  - apply same_mul; auto; [apply sized_exp; auto | apply sized_mul; auto|]. apply exp_log; auto; [apply sized_mul; auto|]. repeat apply unit_mul; auto. apply unit_inv; auto.
  - rewrite (raw_assoc raw (b^-)) by auto. rewrite cancel_right; auto; [apply same_refl | apply sized_mul; auto].
Qed.

(* residuals after moving both ends, from poses at which the measurement holds *)
Lemma spatial_moved_prior mu x d : good mu -> good x -> x ~~ mu -> exists q, sized_pose raw q /\ prior_residual raw mu (lie_retract raw x d) = lg_log raw q /\ q ~~ (lg_exp raw d)^-.
Proof.
  intros (Lm & Um) (Lx & Ux) H. exists ((x ** lg_exp raw d)^- ** mu). split; [apply sized_mul; auto|]. split; [reflexivity|].
  assert (Ue : unit_pose raw (lg_exp raw d)) by (apply unit_exp; auto).
  rewrite inv_of_mul, raw_assoc by auto. apply same_trans with ((lg_exp raw d)^- ** lg_one raw); [|left; apply mul_one; auto; apply sized_inv; auto].
  apply same_mul; auto; [apply sized_mul; auto | apply sized_one|]. rewrite <- (inv_l raw Hk x) by auto. apply same_mul; auto. apply same_sym; auto.
Qed.
Lemma spatial_moved_between s a b da db : good s -> good a -> good b -> a ** s ~~ b -> length da = lg_dim raw ->
  exists q, sized_pose raw q /\ between_residual raw s (lie_retract raw a da) (lie_retract raw b db) = lg_log raw q /\
    q ~~ (lg_exp raw db)^- ** lg_exp raw (mvec (lg_adj raw (s^-)) da).
Proof.
  intros (Ls & Us) (La & Ua) (Lb & Ub) H Hda. exists (((a ** lg_exp raw da)^- ** (b ** lg_exp raw db))^- ** s). split; [apply sized_mul; auto|]. split; [reflexivity|].
  assert (Ea : good (lg_exp raw da)) by (split; [apply sized_exp | apply unit_exp]; auto). assert (Eb : good (lg_exp raw db)) by (split; [apply sized_exp | apply unit_exp]; auto).
  destruct Ea as (Lea & Uea). destruct Eb as (Leb & Ueb). set (ea := lg_exp raw da) in *. set (eb := lg_exp raw db) in *.
  assert (Ux : unit_pose raw (a ** ea)) by (apply unit_mul; auto). assert (Uy : unit_pose raw (b ** eb)) by (apply unit_mul; auto).
  rewrite inv_of_mul by (auto; apply unit_inv; auto). rewrite inv_of_inv by (auto; apply sized_mul; auto). rewrite (inv_of_mul raw Hk b eb) by auto.
  rewrite !raw_assoc by auto. apply same_mul; auto; [apply sized_mul; auto | apply sized_exp; auto|].
  rewrite exp_adj by (auto; try (apply sized_inv; auto); apply unit_inv; auto). rewrite inv_of_inv by auto. fold ea. rewrite raw_assoc by auto.
  apply same_trans with ((a ** s)^- ** (a ** (ea ** s))).
  - apply same_mul_l; auto; [apply sized_inv; auto | apply sized_inv; auto|]. apply same_inv; auto; [apply sized_mul; auto|]. apply same_sym; auto.
  - rewrite inv_of_mul by auto. rewrite raw_assoc by auto. rewrite cancel_left; auto; [apply same_refl | apply sized_mul; auto].
Qed.
Lemma angle_neg d : length d = lg_dim raw -> rotation_angle raw (vneg d) = rotation_angle raw d.
Proof.
  unfold rotation_angle. intros H. unfold vneg. rewrite skipn_map. apply neg_len. rewrite skipn_length, H. destruct Hs; reflexivity.
Qed.
Lemma angle_adj g d : unit_pose raw g -> length d = lg_dim raw -> rotation_angle raw (mvec (lg_adj raw g) d) = rotation_angle raw d.
Proof.
  intros (_ & Hu) Hd. specialize (Hu Hs). unfold rotation_angle. destruct Hs; cbn [lg_adj lg_dim raw_so3 raw_se3 Nat.sub] in *.
  - cbn [skipn]. rewrite matrix_rotate by auto. apply len3_sq, rotate_sq. auto.
  - rewrite se3_adj_form by auto. rewrite skipn_app. replace (length (vadd _ _)) with 3%nat by (symmetry; apply vadd3; reflexivity). rewrite skipn_all2 by (rewrite vadd3; auto). cbn [app Nat.sub skipn].
    do 6 (destruct d as [|? d]; [discriminate|]); destruct d; [|discriminate]. apply len3_sq, rotate_sq. exact Hu.
Qed.
Lemma spatial_exact_prior mu x d : good mu -> good x -> x ~~ mu -> length d = lg_dim raw -> rotation_angle raw d < PI ->
  prior_residual raw mu (lie_retract raw x d) = vneg d.
Proof.
  intros Hm Hx H Hd Ha. destruct (spatial_moved_prior mu x d Hm Hx H) as (q & Lq & -> & Hq). rewrite <- exp_neg in Hq by auto.
  assert (Ln : length (vneg d) = lg_dim raw) by (rewrite vneg_length; auto). assert (An : rotation_angle raw (vneg d) < PI) by (rewrite angle_neg; auto).
  rewrite (same_log raw q _ Hs Lq (sized_exp raw Hs _) (exp_first_nonzero raw Hs _ Ln An) Hq). apply log_exp; auto.
Qed.
Lemma one_mul a : sized_pose raw a -> lg_one raw ** a = a.
Proof.
  unfold sized_pose. destruct Hs; cbn [lg_mul lg_one raw_so3 raw_se3 length]; intros Ha.
  - destruct a as [|a0 [|a1 [|a2 [|a3 [|]]]]]; try discriminate. unfold quat_mul. cbn [nth]. lists; ring.
  - seven a. rewrite se3_split, se3_mul_rot, se3_mul_tra. unfold quat_mul, rotate, rot_part, tra_part, vadd. cbn [nth zipw map nadd nneg NumR app]. lists; ring.
Qed.
Lemma exp_zero : lg_exp raw (vzero (lg_dim raw)) = lg_one raw.
Proof.
  assert (Ez : forall z, len3 [z; z; z] = 0 \/ z <> 0) by (intros z; destruct (Req_EM_T z 0) as [->|]; auto; left; apply len3_zero; auto).
  assert (L0 : len3 [0; 0; 0] = 0) by (apply len3_zero; auto). clear Ez.
  destruct Hs; cbn [lg_exp lg_dim lg_one raw_so3 raw_se3]; unfold vzero; cbn [repeat n0 NumR].
  - unfold quat_exp. rewrite L0. replace (0 / 2) with 0 by field. rewrite cos_0. cbn [nth]. lists; ring.
  - rewrite se3_exp_form. unfold rotv, trav. cbn [nth]. unfold vee. rewrite lin3_zero by auto. unfold quat_exp. rewrite L0. replace (0 / 2) with 0 by field. rewrite cos_0. cbn [nth app]. lists; ring.
Qed.
Lemma spatial_exact_a s a b d : good s -> good a -> good b -> a ** s ~~ b -> length d = lg_dim raw -> rotation_angle raw d < PI ->
  between_residual raw s (lie_retract raw a d) b = mvec (lg_adj raw (s^-)) d.
Proof.
  intros H_s H_a H_b H Hd Ha. destruct (spatial_moved_between s a b d (vzero (lg_dim raw)) H_s H_a H_b H Hd) as (q & Lq & E & Hq).
  destruct H_s as (Ls & Us). destruct H_b as (Lb & Ub).
  unfold lie_retract at 2, rplus in E. rewrite exp_zero, mul_one in E by auto. rewrite E. rewrite exp_zero in Hq.
  set (v := mvec (lg_adj raw (s^-)) d) in *.
  assert (Lv : length v = lg_dim raw) by (unfold v, mvec; rewrite map_length; apply (adj_shape raw Hs)).
  assert (Av : rotation_angle raw v < PI) by (unfold v; rewrite angle_adj; auto; apply unit_inv; auto).
  assert (E1 : (lg_one raw)^- ** lg_exp raw v = lg_exp raw v).
  { assert (Le : sized_pose raw (lg_exp raw v)) by (apply sized_exp; auto). rewrite <- (one_mul (lg_exp raw v) Le) at 1. apply cancel_left; auto. apply unit_one. }
  rewrite E1 in Hq. rewrite (same_log raw q _ Hs Lq (sized_exp raw Hs _) (exp_first_nonzero raw Hs _ Lv Av) Hq). apply log_exp; auto.
Qed.
Lemma spatial_exact_b s a b d : good s -> good a -> good b -> a ** s ~~ b -> length d = lg_dim raw -> rotation_angle raw d < PI ->
  between_residual raw s a (lie_retract raw b d) = vneg d.
Proof.
  intros (Ls & Us) (La & Ua) (Lb & Ub) H Hd Ha. rewrite <- (spatial_exact_prior s (a^- ** b) d); auto.
  - unfold between_residual, prior_residual, lie_retract, rplus. rewrite raw_assoc by auto. auto.
  - split; [apply sized_mul; auto | apply unit_mul; auto; apply unit_inv; auto].
  - apply between_same; auto.
Qed.
Lemma spatial_jacobian_a s a b : good s -> good a -> good b -> a ** s ~~ b -> lg_adj raw ((a^- ** b)^-) = lg_adj raw (s^-).
Proof.
  intros (Ls & Us) (La & Ua) (Lb & Ub) H. apply same_adj; auto; try (apply sized_inv; auto). apply same_inv; auto; [apply sized_mul; auto|]. apply between_same; auto.
Qed.

Lemma spatial_prior_derivative mu x d : good mu -> good x -> x ~~ mu -> length d = lg_dim raw ->
  vderiv (fun t => prior_residual raw mu (lie_retract raw x (vscale t d))) (mvec (neg_eye (lg_dim raw)) d).
Proof.
  intros Hm Hx H Hd. rewrite neg_eye_mvec by auto. split.
  - intros t. rewrite vneg_length, Hd. apply log_length. auto.
  - intros k. pose proof PI_RGT_0 as Hpi. set (l := rotation_angle raw d). assert (Hl : 0 <= l) by apply len3_pos.
    assert (Hp : 0 < PI / (l + 1)) by (apply Rdiv_lt_0_compat; lra).
    apply (derivable_local _ (fun t => t * nth k (vneg d) 0) _ (PI / (l + 1))); auto.
    + intros t Ht. assert (Ls : length (vscale t d) = lg_dim raw) by (unfold vscale; rewrite map_length; auto).
      rewrite spatial_exact_prior; auto.
      * rewrite vneg_vscale, nth_vscale. auto.
      * unfold rotation_angle, vscale. rewrite skipn_map. change (map (nmul t) (skipn (lg_dim raw - 3) d)) with (vscale t (skipn (lg_dim raw - 3) d)).
        rewrite len3_scale by (rewrite skipn_length, Hd; destruct Hs; reflexivity). fold (rotation_angle raw d). fold l.
        apply Rle_lt_trans with (Rabs t * (l + 1)); [apply Rmult_le_compat_l; [apply Rabs_pos|lra]|].
        apply Rlt_le_trans with (PI / (l + 1) * (l + 1)); [apply Rmult_lt_compat_r; lra|]. right. field. lra.
    + apply (times_derivable (fun _ => nth k (vneg d) 0)), cconst.
Qed.
Lemma spatial_between_derivative s a b da db : good s -> good a -> good b -> a ** s ~~ b -> length da = lg_dim raw -> length db = lg_dim raw ->
  vderiv (fun t => between_residual raw s (lie_retract raw a (vscale t da)) (lie_retract raw b (vscale t db)))
         (vsub (mvec (lg_adj raw ((a^- ** b)^-)) da) db).
Proof.
  intros H_s H_a H_b H Ha Hb. rewrite (spatial_jacobian_a s a b) by auto. set (e := mvec (lg_adj raw (s^-)) da).
  assert (Le : length e = lg_dim raw) by (unfold e, mvec; rewrite map_length; apply (adj_shape raw Hs)).
  destruct (spatial_pair raw db e Hs Hb Le) as ((D1 & D2) & eps & Hp & Hn). split.
  - intros t. rewrite <- (D1 t), log_length by auto. apply log_length. auto.
  - intros k. eapply (derivable_local _ _ _ eps); [auto| |apply D2]. intros t Ht.
    assert (La : length (vscale t da) = lg_dim raw) by (unfold vscale; rewrite map_length; auto).
    destruct (spatial_moved_between s a b (vscale t da) (vscale t db) H_s H_a H_b H La) as (q & Lq & -> & Hq). f_equal.
    rewrite mvec_vscale' in Hq. fold e in Hq. apply same_log; auto. apply sized_mul; auto.
Qed.
End Spatial.

Section Graph.
Variable groups : vty -> lie_ops R (list R).
Variable fs : list (factor R).
Hypothesis Hfs : forall f, In f fs -> pose_factor groups f.
Hypothesis Hk : forall v, In v (mentioned fs) -> planar (groups (v_ty v)) \/ spatial (groups (v_ty v)).
Let E := pose_env groups.

Lemma factor_derivative f val (blk : var -> list R) : In f fs -> unit_measurement groups f -> measured groups val f ->
  (forall v, In v (f_vars f) -> pose_value groups (v_ty v) (val v) /\ unit_pose (groups (v_ty v)) (params (val v))) ->
  (forall v, In v (f_vars f) -> length (blk v) = lg_dim (groups (v_ty v))) ->
  vderiv (fun t => residual_at E (fun v => group_value (v_ty v) (lie_retract (groups (v_ty v)) (params (val v)) (vscale t (blk v)))) f)
    (fold_right vadd (vzero (residual_dim f)) (zipw (fun v W => mvec W (blk v)) (f_vars f) (jacobians_at E val f))).
Proof.
  intros Hf Hu Hm Hv Hb. assert (Hs : forall t x, pose_value groups t x -> sized_pose (groups t) (params x)).
  { intros t x (p & -> & Hp). rewrite params_value. exact Hp. }
  revert Hu Hm Hv Hb. destruct (Hfs f Hf) as [v mu n Hmu Hn Hd|va vb Tab n h Hbt Htab Hn Hd]; intros Hu Hm Hv Hb.
  - assert (Hp : planar (groups (v_ty v)) \/ spatial (groups (v_ty v))) by (apply Hk, (in_mentioned fs _ v Hf); cbn; auto).
    destruct (Hv v) as (Lv & Uv); [cbn; auto|]. specialize (Hb v (or_introl eq_refl)).
    assert (Um : unit_pose (groups (v_ty v)) (params mu)) by (apply (Hu v mu); cbn; auto).
    unfold residual_dim. cbn [prior_make f_noise]. rewrite Hd.
    change (vderiv (fun t => prior_residual (groups (v_ty v)) (params mu) (params (group_value (v_ty v) (lie_retract (groups (v_ty v)) (params (val v)) (vscale t (blk v))))))
      (vadd (mvec (neg_eye (lg_dim (groups (v_ty v)))) (blk v)) (vzero (lg_dim (groups (v_ty v)))))).
    rewrite add_zero_r by (rewrite neg_eye_mvec, vneg_length; auto).
    apply (vderiv_ext _ (fun t => prior_residual (groups (v_ty v)) (params mu) (lie_retract (groups (v_ty v)) (params (val v)) (vscale t (blk v))))); [intros t; rewrite params_value; reflexivity|].
    destruct Hp as [Hp|Hp].
    + assert (Em : params (val v) = params mu) by (eapply planar_same; eauto). rewrite Em. apply raw_prior; auto. rewrite <- Em. apply Uv. auto.
    + apply spatial_prior_derivative; auto.
  - pose proof (between_inv va vb Tab n h Hbt) as (Ht & ->).
    assert (Hp : planar (groups (v_ty va)) \/ spatial (groups (v_ty va))) by (apply Hk, (in_mentioned fs _ va Hf); cbn; auto).
    destruct (Hv va) as (La & Ua); [cbn; auto|]. destruct (Hv vb) as (Lb & Ub); [cbn; auto|].
    pose proof (Hb va (or_introl eq_refl)) as Ba. pose proof (Hb vb (or_intror (or_introl eq_refl))) as Bb.
    assert (Ut : unit_pose (groups (v_ty va)) (params Tab)) by (apply (Hu va Tab); cbn; auto).
    assert (Hm' : same_pose (groups (v_ty va)) (lg_mul (groups (v_ty va)) (params (val va)) (params Tab)) (params (val vb))) by exact Hm.
    unfold residual_dim. cbn [f_noise]. rewrite Hd.
    change (vderiv (fun t => between_residual (groups (v_ty va)) (params Tab)
        (params (group_value (v_ty va) (lie_retract (groups (v_ty va)) (params (val va)) (vscale t (blk va)))))
        (params (group_value (v_ty vb) (lie_retract (groups (v_ty vb)) (params (val vb)) (vscale t (blk vb))))))
      (vadd (mvec (lg_adj (groups (v_ty va)) (lg_inv (groups (v_ty va)) (lg_mul (groups (v_ty va)) (lg_inv (groups (v_ty va)) (params (val va))) (params (val vb))))) (blk va))
        (vadd (mvec (neg_eye (lg_dim (groups (v_ty va)))) (blk vb)) (vzero (lg_dim (groups (v_ty va))))))).
    apply Hs in Lb. rewrite <- Ht in Bb, Ub, Lb |- *. rewrite neg_eye_mvec by auto. rewrite add_zero_r by (rewrite vneg_length; auto). rewrite add_neg.
    apply (vderiv_ext _ (fun t => between_residual (groups (v_ty va)) (params Tab) (lie_retract (groups (v_ty va)) (params (val va)) (vscale t (blk va)))
      (lie_retract (groups (v_ty va)) (params (val vb)) (vscale t (blk vb))))); [intros t; rewrite !params_value; reflexivity|].
    destruct Hp as [Hp|Hp].
    + apply raw_between; auto; [apply Ua; auto | apply Ut; auto | eapply planar_same; eauto].
    + apply spatial_between_derivative; auto.
Qed.

Lemma consistent_derivative g a vs val x r : graph_make E fs = Ok g -> (forall f, In f fs -> linear_noise (f_noise f)) ->
  (forall f, In f fs -> unit_measurement groups f /\ measured groups val f) ->
  wf_assign (lie_class groups) vs false a -> (forall t, of_type t vs = of_type t (mentioned fs)) ->
  (forall v, In v vs -> get_value (lie_class groups) a v = Ok (val v) /\ unit_pose (groups (v_ty v)) (params (val v))) ->
  length r = total residual_dim fs -> length x = l_dim (g_local_layout g) ->
  exists A y rt, compute_whitened_residual_jacobian E g a r = Ok A /\ matmul A x = Ok y /\
    (forall t, exists a', manifold_retract (lie_class groups) a (mkAssign (vscale t x) (g_local_layout g)) = Ok a' /\
       compute_whitened_residual_vector E g a' = Ok (rt t)) /\
    vderiv rt y.
Proof.
  intros Eg Hlin Hcon Hwf Hty Hget Hr Hx. assert (Hk' : forall v, In v (mentioned fs) -> PPose.known groups (v_ty v)) by (intros v Hv; apply Hk; auto).
  assert (Hok : forall f, In f fs -> factor_ok f) by (intros f Hf; eapply pose_factor_ok; eauto).
  destruct (made E fs g Hok Eg) as (Hg & Hne).
  assert (Hin : forall v, In v vs <-> In v (mentioned fs)).
  { intros v. pose proof (of_type_ty vs (v_ty v) v) as H1. pose proof (of_type_ty (mentioned fs) (v_ty v) v) as H2. rewrite Hty in H1. tauto. }
  assert (Hval : forall v, In v vs -> pose_value groups (v_ty v) (val v)).
  { intros v Hv. apply pose_value_ok. destruct (get_value_ok _ (pose_classes groups) vs a v Hwf Hv) as (y & Ey & Hy & _).
    destruct (Hget v Hv) as (Ev & _). rewrite Ev in Ey. injection Ey as <-. auto. }
  destruct (pose_shaped groups fs Hfs Hk') as [_ Hjac _].
  assert (Hblk : forall v, In v (mentioned fs) -> length (block (lie_class groups) (g_local_layout g) x v) = lg_dim (groups (v_ty v))).
  { intros v Hv. rewrite (ig_local _ _ _ Hg) in *. exact (PDeriv.block_length E fs x v Hx Hv). }
  apply (jacobian_is_derivative E fs g a vs r val x (fun t v => group_value (v_ty v) (lie_retract (groups (v_ty v)) (params (val v)) (vscale t (block (lie_class groups) (g_local_layout g) x v))))); auto.
  - apply pose_classes.
  - intros v Hv. apply Hget; auto.
  - intros f Hf. apply Hjac; auto. intros v Hv. apply pose_value_ok, Hval, Hin. auto.
  - destruct (pose_posed groups fs Hfs Hk' Hne) as [_ _ _ (f & Hf & Hd) _]. intros Hz. apply Hd.
    clear -Hf Hz. induction fs as [|h l IH]; [destruct Hf|]. cbn in Hz. destruct Hf as [->|Hf]; [lia|]. apply IH; auto. unfold total in *. lia.
  - intros t v Hv. split; [reflexivity|]. apply pose_value_ok. eexists. split; [reflexivity|]. apply retract_dim. apply Hk, Hin; auto.
  - intros f Hf. destruct (Hcon f Hf) as (Hu & Hm). apply (factor_derivative f val (block (lie_class groups) (g_local_layout g) x)); auto.
    + intros v Hv. assert (In v vs) by (apply Hin; eapply in_mentioned; eauto). split; [auto|]. apply Hget; auto.
    + intros v Hv. apply Hblk. eapply in_mentioned; eauto.
Qed.
End Graph.
