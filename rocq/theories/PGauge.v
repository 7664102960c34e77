(* Proofs: pose graphs without absolute measurements look the same from every world frame; a
   common motion of all poses can be split off from a displacement. *)
From Coq Require Import List Arith Bool Lia Reals Lra Psatz.
From Verif Require Import Num NumR Py Arr MLayout MAssign MNoise MSparse MFactor MGraph MLie MPose SpecLayout SpecTree SpecAssign SpecNoise SpecGraph SpecLie SpecPose SpecZero SpecSpatial SpecTwin SpecInv SpecOrder SpecSym SpecFrame SpecBook SpecNear SpecBasin SpecGauge PGraph PVec PLie PPose PFrame PExSym PSolverR PNoise PDescent PLocal PLin PLinDl POrder PDeriv PTwin2 PFree PZero PJacZero PNear PSpatial PSpatial2 PSpatial3 PSpatial4 PBook PBasin4 PBasin5 PBasin6 PBasin7 PBasin8 PBasin9 PBasin10 PBasin11 PBasin12.
Import ListNotations.
Local Open Scope R_scope.
Notation moved := SpecBook.moved.
Notation move := SpecFrame.move.

Section Graph.
Variable groups : vty -> lie_ops R (list R).
Variable fs : list (factor R).
Variable z : var -> pytree R.
Hypothesis SB : solved_by groups fs z.
Hypothesis Rel : forall f, In f fs -> f_cls f = 1%nat.
Let E := pose_env groups.
Notation field := (var -> list R).
Notation LL := (LL groups fs).
Notation RR := (RR groups fs).
Notation flatv := (flatv fs).
Notation legal val := (forall v, In v (mentioned fs) -> value_ok (e_cls E (v_ty v)) (val v)).
Definition framed (frame : vty -> list R) (w val : var -> pytree R) : Prop := forall v, In v (mentioned fs) -> val v = move groups frame (v_ty v) (w v).

(* ---- the same problem in every frame ---- *)
Section Frame.
Variable frame : vty -> list R.
Hypothesis Hu : unit_frame groups frame.
Let HS := frame_symmetry groups frame Hu fs (fun f Hf => proj1 (sb_factors _ _ _ SB f Hf)) (sb_groups _ _ _ SB).

Lemma framed_legal w val : framed frame w val -> legal val.
Proof. intros H v Hv. rewrite (H v Hv). apply pose_value_ok, move_value. apply (sb_groups _ _ _ SB); auto. Qed.
Lemma framed_related w val : legal w -> framed frame w val -> related_values E fs (SpecFrame.moved groups frame) w val.
Proof. intros Lw H v Hv. split; [apply Lw; auto|]. split; [apply (framed_legal w val H v Hv)|]. apply H; auto. Qed.
Lemma unmoved f : In f fs -> move_factor groups frame f = f.
Proof. intros Hf. unfold move_factor. rewrite (Rel f Hf). reflexivity. Qed.
Lemma framed_white w val f : legal w -> framed frame w val -> In f fs -> whitened_at E val f = whitened_at E w f.
Proof.
  intros Lw H Hf. pose proof (sy_residual _ _ _ _ HS f w val Hf (framed_related w val Lw H)) as R1. rewrite unmoved in R1 by auto. unfold whitened_at. f_equal. exact R1.
Qed.
Lemma framed_jac w val f : legal w -> framed frame w val -> In f fs -> jacobians_at E val f = jacobians_at E w f.
Proof.
  intros Lw H Hf. pose proof (sy_jacobian _ _ _ _ HS f w val Hf (framed_related w val Lw H)) as R1. rewrite unmoved in R1 by auto. exact R1.
Qed.
Lemma framed_cost w val : legal w -> framed frame w val -> cost_at E fs val = cost_at E fs w.
Proof. intros Lw H. unfold cost_at. apply vsum_map_ext. intros f Hf. rewrite (framed_white w val); auto. Qed.
Lemma framed_model w val xi : legal w -> framed frame w val -> model E fs val val xi = model E fs w w xi.
Proof.
  intros Lw H. unfold model. apply vsum_map_ext. intros f Hf. unfold model_at, whitened_jacobians_at. rewrite (framed_white w val), (framed_jac w val) by auto. reflexivity.
Qed.
Lemma framed_damped beta w val xi : legal w -> framed frame w val -> damped_step E fs beta val val xi -> damped_step E fs beta w w xi.
Proof.
  intros Lw H (T & M). split; auto. intros eta Te. destruct (M eta Te) as (H1 & H2). rewrite !(framed_model w val) in H1 by auto. rewrite !(framed_model w val) in H2 by auto. auto.
Qed.
Lemma framed_moved w val xi p : framed frame w val -> moved E fs val xi p -> exists p0, moved E fs w xi p0 /\ framed frame p0 p.
Proof.
  intros H Hp. exists (fun v => group_value (v_ty v) (lie_retract (groups (v_ty v)) (params (w v)) (xi v))). split; [intros v Hv; reflexivity|].
  intros v Hv. specialize (Hp v Hv). cbn in Hp. injection Hp as Hp. rewrite <- Hp, (H v Hv). unfold move, lie_retract, rplus. rewrite !params_value. rewrite raw_assoc by (apply (sb_groups _ _ _ SB); auto). reflexivity.
Qed.
Lemma framed_quality w val xi p0 p : legal w -> legal p0 -> framed frame w val -> framed frame p0 p -> quality E fs val val xi p = quality E fs w w xi p0.
Proof. intros Lw Lp H Hp. unfold quality. rewrite (framed_cost w val), (framed_cost p0 p), (framed_model w val) by auto. reflexivity. Qed.
End Frame.

Lemma framed_then fa fb w1 w2 w3 : unit_frame groups fa -> unit_frame groups fb -> (forall v, In v (mentioned fs) -> PZero.known (groups (v_ty v))) ->
  framed fa w1 w2 -> framed fb w2 w3 -> exists fc, unit_frame groups fc /\ framed fc w1 w3.
Proof.
  intros Ua Ub Hk H1 H2. exists (fun t => lg_mul (groups t) (fb t) (fa t)). split.
  - intros t. split; intros Ht; apply (unit_mul (groups t)); auto; try apply Ua; try apply Ub; [left|right]; auto.
  - intros v Hv. rewrite (H2 v Hv), (H1 v Hv). unfold move. rewrite params_value, raw_assoc by (apply (sb_groups _ _ _ SB); auto). reflexivity.
Qed.

(* ---- displacements that keep one variable in place ---- *)
Variable v0 : var.
Hypothesis Hv0 : In v0 (mentioned fs).
Hypothesis Hj : forall v, In v (mentioned fs) -> joined fs v0 v.

Lemma one_type v : joined fs v0 v -> v_ty v = v_ty v0.
Proof.
  induction 1 as [|va vb Tab n f Hb Hf _ IH|va vb Tab n f Hb Hf _ IH]; auto; destruct (between_inv va vb Tab n f Hb) as (Hty & _); congruence.
Qed.

Lemma pinned nu : unseen_at E fs z nu -> nu v0 = vzero (lg_dim (groups (v_ty v0))) -> forall v, In v (mentioned fs) -> nu v = vzero (lg_dim (groups (v_ty v))).
Proof.
  intros (Tn & HU) H0 v Hv. pose proof (Hj v Hv) as Ht0. revert Hv. induction Ht0 as [|va vb Tab n f Hb Hf Ht IH|va vb Tab n f Hb Hf Ht IH]; intros Hv; auto.
  - specialize (HU _ Hf). destruct (sb_factors _ _ _ SB _ Hf) as (Pf & _). pose proof (between_inv va vb Tab n f Hb) as (Hty & ->). assert (Hva : In va (mentioned fs)) by (apply (men fs _ va Hf); cbn; auto).
    pose proof (between_dim _ _ _ _ _ Pf) as Hd.
    pose proof (Tn va Hva) as La. pose proof (Tn vb Hv) as Lb. change (length (nu va) = lg_dim (groups (v_ty va))) in La. change (length (nu vb) = lg_dim (groups (v_ty vb))) in Lb. rewrite <- Hty in Lb |- *. specialize (IH Hva).
    unfold residual_dim in HU. cbn [f_noise] in HU. rewrite Hd in HU. set (raw := groups (v_ty va)) in *.
    change (vadd (mvec (lg_adj raw (lg_inv raw (lg_mul raw (lg_inv raw (params (z va))) (params (z vb))))) (nu va)) (vadd (mvec (neg_eye (lg_dim raw)) (nu vb)) (vzero (lg_dim raw))) = vzero (lg_dim raw)) in HU.
    rewrite neg_eye_mvec in HU by auto. rewrite add_zero_r in HU by (rewrite vneg_length; auto). rewrite add_neg in HU. apply sub_zero in HU; [|rewrite k_adj_length by (apply (kn groups fs z SB); auto); auto].
    rewrite <- HU, IH, mvec_vzero. f_equal. apply (k_adj_shape raw). apply (kn groups fs z SB); auto.
  - specialize (HU _ Hf). destruct (sb_factors _ _ _ SB _ Hf) as (Pf & _). pose proof (between_inv va vb Tab n f Hb) as (Hty & ->). assert (Hvb : In vb (mentioned fs)) by (apply (men fs _ vb Hf); cbn; auto).
    pose proof (between_dim _ _ _ _ _ Pf) as Hd.
    pose proof (Tn va Hv) as La. pose proof (Tn vb Hvb) as Lb. change (length (nu va) = lg_dim (groups (v_ty va))) in La. change (length (nu vb) = lg_dim (groups (v_ty vb))) in Lb. specialize (IH Hvb). pose proof (sb_values _ _ _ SB va Hv) as (Va & Ua). pose proof (sb_values _ _ _ SB vb Hvb) as (Vb & Ub). rewrite <- Hty in Lb, IH, Vb, Ub.
    pose proof (kn groups fs z SB va Hv) as Ka. unfold residual_dim in HU. cbn [f_noise] in HU. rewrite Hd in HU. set (raw := groups (v_ty va)) in *.
    change (vadd (mvec (lg_adj raw (lg_inv raw (lg_mul raw (lg_inv raw (params (z va))) (params (z vb))))) (nu va)) (vadd (mvec (neg_eye (lg_dim raw)) (nu vb)) (vzero (lg_dim raw))) = vzero (lg_dim raw)) in HU.
    rewrite neg_eye_mvec in HU by auto. rewrite add_zero_r in HU by (rewrite vneg_length; auto). rewrite add_neg in HU. apply sub_zero in HU; [|rewrite k_adj_length by auto; auto].
    rewrite IH in HU. apply adj_back in HU; auto; [apply unit_mul; auto; apply unit_inv; auto | apply sized_mul; auto].
Qed.

Lemma slice_lower : exists m, 0 < m /\ forall eta, tangent E fs eta -> eta v0 = vzero (lg_dim (groups (v_ty v0))) -> m * size fs eta <= vnorm (LL z eta).
Proof.
  set (C := e_cls E). set (L := graph_layout E fs true). set (n := l_dim L). set (F := fun x => LL z (block C L x) ++ block C L x v0).
  assert (Lb : forall x, length x = n -> length (block C L x v0) = lg_dim (groups (v_ty v0))) by (intros x Hx; apply (block_tangent E fs x Hx v0 Hv0)).
  assert (HF : linmap (total residual_dim fs + lg_dim (groups (v_ty v0))) n F).
  { split; [intros x Hx; unfold F; rewrite app_length, Lb by auto; f_equal; apply (LL_len groups fs z SB); apply (legal_z groups fs z SB)|]. intros x y t Hx Hy. unfold F.
    rewrite (LL_agree groups fs z (block C L (vadd x (vscale t y))) (fun v => vadd (block C L x v) (vscale t (block C L y v)))) by (intros v _; unfold vadd, vscale; rewrite block_zipw, block_map; reflexivity).
    rewrite (LL_move groups fs z SB) by (try apply (legal_z groups fs z SB); apply block_tangent; auto).
    assert (Hl : length (LL z (block C L x)) = length (LL z (block C L y))) by (rewrite !(LL_len groups fs z SB) by apply (legal_z groups fs z SB); auto).
    assert (EB : block C L (vadd x (vscale t y)) v0 = vadd (block C L x v0) (vscale t (block C L y v0))) by (unfold vadd, vscale; rewrite block_zipw, block_map; reflexivity). rewrite EB.
    unfold vscale at 3. rewrite map_app. unfold vadd at 3. rewrite app_zip by (rewrite map_length; auto). reflexivity. }
  destruct (inj_bound _ n F HF) as ((c & Hc & Hlow) & _).
  { intros x Hx H0. unfold F in H0. assert (Hz0 : LL z (block C L x) = vzero (total residual_dim fs) /\ block C L x v0 = vzero (lg_dim (groups (v_ty v0)))).
    { assert (Ll : length (LL z (block C L x)) = total residual_dim fs) by (apply (LL_len groups fs z SB); apply (legal_z groups fs z SB)).
      apply vzero_split in H0; auto. }
    destruct Hz0 as (HA & HB). assert (HU : unseen_at E fs z (block C L x)).
    { split; [apply block_tangent; auto|]. intros f Hf. destruct (sb_factors _ _ _ SB f Hf) as (Pf & Inf & _). pose proof (flat_zero _ _ _ HA f Hf) as Hz. cbv beta in Hz.
      rewrite (linf_len groups fs z SB) in Hz by (auto; apply (legal_z groups fs z SB)). unfold linf in Hz. apply wl_injective in Hz; auto; [apply (pose_factor_ok groups f Pf)|].
      apply (push_len groups f Pf); [intros v Hv; apply (kn groups fs z SB), mentioned_in; eauto | apply legal1 with (fs := fs); auto; apply (legal_z groups fs z SB)]. }
    pose proof (pinned _ HU HB) as Hb. assert (Hs : size fs (block C L x) = 0).
    { rewrite (size_flat fs). apply vnorm_eq; [lra|]. unfold PBasin8.flatv. rewrite flat_sumsq. rewrite (vsum_map_ext _ (fun _ => 0)) by (intros v Hv; rewrite Hb by auto; apply zero_sumsq). rewrite vsum_zeros. ring. }
    pose proof (extent_block E fs x Hx) as Hs'. fold C L in Hs'. rewrite Hs' in Hs. destruct (vnorm_sq x) as (_ & H1). rewrite Hs in H1. assert (H2 : sumsq x = 0) by lra. apply (proj1 (PVec.sumsq_zero _)) in H2. rewrite Hx in H2. exact H2. }
  exists (sqrt c). split; [apply sqrt_lt_R0; auto|]. intros eta Ht Hr. destruct (field_vec E fs eta Ht) as (x & Hx & Hag). rewrite <- (size_agree fs _ _ Hag), <- (LL_agree groups fs z _ _ Hag). rewrite extent_block by auto.
  specialize (Hlow x Hx). unfold F in Hlow. rewrite sumsq_app in Hlow. fold E C L in Hag. rewrite (Hag v0 Hv0), Hr, zero_sumsq, Rplus_0_r in Hlow. destruct (vnorm_sq x) as (X0 & X1). destruct (vnorm_sq (LL z (block C L x))) as (Y0 & Y1). unfold C, L in *. rewrite <- X1, <- Y1 in Hlow.
  pose proof (sqrt_pos c) as S0. pose proof (sqrt_sqrt c ltac:(lra)) as S1. apply Rsqr_incr_0_var; auto. unfold Rsqr. rewrite <- S1 in Hlow. lra.
Qed.
End Graph.
