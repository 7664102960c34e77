(* Proofs: displacements that keep the root of every free part in place, and splitting the
   unseen motions off a displacement. *)
From Coq Require Import List Arith Bool Lia Reals Lra Psatz.
From Verif Require Import Num NumR Py Arr MLayout MAssign MNoise MSparse MFactor MGraph MLie MPose SpecLayout SpecTree SpecAssign SpecNoise SpecGraph SpecLie SpecPose SpecZero SpecSpatial SpecTwin SpecInv SpecOrder SpecSym SpecFrame SpecBook SpecNear SpecBasin SpecGauge SpecLoose PGraph PVec PLie PPose PFrame PExSym PSolverR PNoise PDescent PLocal PLin PLinDl POrder PDeriv PTwin2 PFree PZero PJacZero PNear PSpatial PSpatial2 PSpatial3 PSpatial4 PBook PBasin4 PBasin5 PBasin6 PBasin7 PBasin8 PBasin9 PBasin10 PBasin11 PBasin12 PGauge PGauge2 PGauge3 PLoose.
Import ListNotations.
Local Open Scope R_scope.
Notation moved := SpecBook.moved.

Section Graph.
Variable groups : vty -> lie_ops R (list R).
Variable fs : list (factor R).
Variable z : var -> pytree R.
Hypothesis SB : solved_by groups fs z.
Variable rt : var -> option var.
Hypothesis HP : parts fs rt.
Let E := pose_env groups.
Notation field := (var -> list R).
Notation LL := (LL groups fs).
Notation RR := (RR groups fs).
Notation flatv := (flatv fs).
Notation dimv v := (lg_dim (groups (v_ty v))).
Notation plus xi t nu := (fun v => vadd (xi v) (vscale t (nu v))).
Definition is_root (v : var) : bool := match rt v with Some r => eqb r v | None => false end.
Definition rooted (e : field) : Prop := forall v, In v (mentioned fs) -> is_root v = true -> e v = vzero (dimv v).

Lemma root_is v : rt v = Some v -> is_root v = true.
Proof. unfold is_root. intros ->. apply eqb_ok. auto. Qed.
Lemma joined_in r v : joined fs r v -> In v (mentioned fs) -> In r (mentioned fs).
Proof.
  induction 1 as [|va vb Tab n f Hb Hf _ IH|va vb Tab n f Hb Hf _ IH]; auto; intros _; apply IH; destruct (between_inv _ _ _ _ _ Hb) as (_ & ->); [apply (men fs _ va Hf) | apply (men fs _ vb Hf)]; cbn; auto.
Qed.
Lemma joined_type r v : joined fs r v -> v_ty v = v_ty r.
Proof. intros H. apply (one_type fs r). exact H. Qed.

(* ---- the residuals see every displacement that keeps the roots in place ---- *)
Lemma prior_zero nu v mu n : unseen_at E fs z nu -> In (prior_make v mu n) fs -> nu v = vzero (dimv v).
Proof.
  intros (Tn & HU) Hf. assert (Hv0 : In v (mentioned fs)) by (apply (men fs _ v Hf); cbn; auto).
  specialize (HU _ Hf). destruct (sb_factors _ _ _ SB _ Hf) as (Pf & _). pose proof (Tn v Hv0) as Ln. change (length (nu v) = dimv v) in Ln.
  pose proof (prior_dim _ _ _ _ Pf) as Hd.
  unfold residual_dim in HU. cbn [prior_make f_noise] in HU. rewrite Hd in HU.
  change (vadd (mvec (neg_eye (dimv v)) (nu v)) (vzero (dimv v)) = vzero (dimv v)) in HU. rewrite neg_eye_mvec in HU by auto. rewrite add_zero_r in HU by (rewrite vneg_length; auto). apply neg_zero in HU; auto.
Qed.
Lemma edge_zero nu va vb Tab n f : unseen_at E fs z nu -> between_make va vb Tab n = Ok f -> In f fs -> (nu va = vzero (dimv va) <-> nu vb = vzero (dimv vb)).
Proof.
  intros (Tn & HU) Hb Hf. assert (Hva : In va (mentioned fs)) by (destruct (between_inv _ _ _ _ _ Hb) as (_ & Ef); apply (men fs _ va Hf); rewrite Ef; cbn; auto). assert (Hvb : In vb (mentioned fs)) by (destruct (between_inv _ _ _ _ _ Hb) as (_ & Ef); apply (men fs _ vb Hf); rewrite Ef; cbn; auto).
  split; intros IH.
  - specialize (HU _ Hf). destruct (sb_factors _ _ _ SB _ Hf) as (Pf & _). pose proof (between_inv va vb Tab n f Hb) as (Hty & ->). 
    pose proof (between_dim _ _ _ _ _ Pf) as Hd.
    pose proof (Tn va Hva) as La. pose proof (Tn vb Hvb) as Lb. change (length (nu va) = lg_dim (groups (v_ty va))) in La. change (length (nu vb) = lg_dim (groups (v_ty vb))) in Lb. rewrite <- Hty in Lb |- *.
    unfold residual_dim in HU. cbn [f_noise] in HU. rewrite Hd in HU. set (raw := groups (v_ty va)) in *.
    change (vadd (mvec (lg_adj raw (lg_inv raw (lg_mul raw (lg_inv raw (params (z va))) (params (z vb))))) (nu va)) (vadd (mvec (neg_eye (lg_dim raw)) (nu vb)) (vzero (lg_dim raw))) = vzero (lg_dim raw)) in HU.
    rewrite neg_eye_mvec in HU by auto. rewrite add_zero_r in HU by (rewrite vneg_length; auto). rewrite add_neg in HU. apply sub_zero in HU; [|rewrite k_adj_length by (apply (kn groups fs z SB); auto); auto].
    rewrite <- HU, IH, mvec_vzero. f_equal. apply (k_adj_shape raw). apply (kn groups fs z SB); auto.
  - specialize (HU _ Hf). destruct (sb_factors _ _ _ SB _ Hf) as (Pf & _). pose proof (between_inv va vb Tab n f Hb) as (Hty & ->). 
    pose proof (between_dim _ _ _ _ _ Pf) as Hd.
    pose proof (Tn va Hva) as La. pose proof (Tn vb Hvb) as Lb. change (length (nu va) = lg_dim (groups (v_ty va))) in La. change (length (nu vb) = lg_dim (groups (v_ty vb))) in Lb.  pose proof (sb_values _ _ _ SB va Hva) as (Va & Ua). pose proof (sb_values _ _ _ SB vb Hvb) as (Vb & Ub). rewrite <- Hty in Lb, IH, Vb, Ub.
    pose proof (kn groups fs z SB va Hva) as Ka. unfold residual_dim in HU. cbn [f_noise] in HU. rewrite Hd in HU. set (raw := groups (v_ty va)) in *.
    change (vadd (mvec (lg_adj raw (lg_inv raw (lg_mul raw (lg_inv raw (params (z va))) (params (z vb))))) (nu va)) (vadd (mvec (neg_eye (lg_dim raw)) (nu vb)) (vzero (lg_dim raw))) = vzero (lg_dim raw)) in HU.
    rewrite neg_eye_mvec in HU by auto. rewrite add_zero_r in HU by (rewrite vneg_length; auto). rewrite add_neg in HU. apply sub_zero in HU; [|rewrite k_adj_length by auto; auto].
    rewrite IH in HU. apply adj_back in HU; auto; [apply unit_mul; auto; apply unit_inv; auto | apply sized_mul; auto].
Qed.
Lemma pinned_parts nu : unseen_at E fs z nu -> rooted nu -> forall v, In v (mentioned fs) -> nu v = vzero (dimv v).
Proof.
  intros HU Hr v Hv. assert (Along : forall r u, joined fs r u -> nu r = vzero (dimv r) -> nu u = vzero (dimv u)).
  { induction 1 as [|va vb Tab n f Hb Hf _ IH|va vb Tab n f Hb Hf _ IH]; auto; intros H0; [apply (edge_zero nu va vb Tab n f HU Hb Hf); auto | apply (edge_zero nu va vb Tab n f HU Hb Hf); auto]. }
  destruct (rt v) as [r|] eqn:Ev.
  - destruct (pa_root _ _ HP v r Ev) as (J & Er). apply (Along r v J). apply Hr; [apply (joined_in r v J Hv) | apply root_is; auto].
  - pose proof (pa_held _ _ HP v Ev) as Ht. clear Ev Hv. induction Ht as [v mu n Hf|va vb Tab n f Hb Hf Ht IH|va vb Tab n f Hb Hf Ht IH]; [apply (prior_zero nu v mu n HU Hf) | apply (edge_zero nu va vb Tab n f HU Hb Hf); auto | apply (edge_zero nu va vb Tab n f HU Hb Hf); auto].
Qed.
Definition mask (e : field) : field := fun v => if is_root v then e v else vzero (dimv v).
Lemma mask_tangent e : tangent E fs e -> tangent E fs (mask e).
Proof. intros Te v Hv. unfold mask. destruct (is_root v); [apply Te; auto | apply vzero_length]. Qed.
Lemma zero_plus t k : vadd (vzero k) (vscale t (vzero k)) = vzero k.
Proof. induction k as [|k IH]; [reflexivity|]. unfold vadd, vscale, vzero in *. cbn. f_equal; [rn; ring | exact IH]. Qed.
Lemma mask_plus e t nu v : mask (plus e t nu) v = plus (mask e) t (mask nu) v.
Proof. unfold mask. destruct (is_root v); auto. symmetry. apply zero_plus. Qed.
Lemma flat_ext' (a b : field) : (forall v, In v (mentioned fs) -> a v = b v) -> flatv a = flatv b.
Proof. intros H. unfold PBasin8.flatv. induction (mentioned fs) as [|v l IH]; auto. cbn. rewrite (H v) by (left; auto). f_equal. apply IH. intros u Hu. apply H. right. auto. Qed.
Lemma parts_lower : exists m, 0 < m /\ forall eta, tangent E fs eta -> rooted eta -> m * size fs eta <= vnorm (LL z eta).
Proof.
  set (C := e_cls E). set (L := graph_layout E fs true). set (n := l_dim L). set (F := fun x => LL z (block C L x) ++ flatv (mask (block C L x))).
  assert (TB : forall x, length x = n -> tangent E fs (block C L x)) by (intros x Hx; apply block_tangent; auto).
  set (k := length (flatv (still groups))). assert (Lk : forall x, length x = n -> length (flatv (mask (block C L x))) = k) by (intros x Hx; apply (flat_length groups fs); [apply mask_tangent; auto | apply (still_tangent groups fs)]).
  assert (HF : linmap (total residual_dim fs + k) n F).
  { split; [intros x Hx; unfold F; rewrite app_length, Lk by auto; f_equal; apply (LL_len groups fs z SB); apply (legal_z groups fs z SB)|]. intros x y t Hx Hy. unfold F.
    assert (EB : forall v, block C L (vadd x (vscale t y)) v = vadd (block C L x v) (vscale t (block C L y v))) by (intros v; unfold vadd, vscale; rewrite block_zipw, block_map; reflexivity).
    rewrite (LL_agree groups fs z (block C L (vadd x (vscale t y))) (fun v => vadd (block C L x v) (vscale t (block C L y v)))) by (intros v _; apply EB).
    rewrite (LL_move groups fs z SB) by (try apply (legal_z groups fs z SB); apply block_tangent; auto).
    assert (Hl : length (LL z (block C L x)) = length (LL z (block C L y))) by (rewrite !(LL_len groups fs z SB) by apply (legal_z groups fs z SB); auto).
    assert (EM : flatv (mask (block C L (vadd x (vscale t y)))) = vadd (flatv (mask (block C L x))) (vscale t (flatv (mask (block C L y))))).
    { rewrite <- (flat_plus groups fs) by (apply mask_tangent; auto). apply flat_ext'. intros v Hv. rewrite <- mask_plus. unfold mask. destruct (is_root v); auto. }
    rewrite EM. unfold vscale at 3. rewrite map_app. unfold vadd at 3. rewrite app_zip by (rewrite map_length; auto). reflexivity. }
  destruct (inj_bound _ n F HF) as ((c & Hc & Hlow) & _).
  { intros x Hx H0. unfold F in H0. assert (Hz0 : LL z (block C L x) = vzero (total residual_dim fs) /\ flatv (mask (block C L x)) = vzero k).
    { assert (Ll : length (LL z (block C L x)) = total residual_dim fs) by (apply (LL_len groups fs z SB); apply (legal_z groups fs z SB)).
      apply vzero_split in H0; auto. }
    destruct Hz0 as (HA & HB). assert (HU : unseen_at E fs z (block C L x)).
    { split; [apply block_tangent; auto|]. intros f Hf. destruct (sb_factors _ _ _ SB f Hf) as (Pf & Inf & _). pose proof (flat_zero _ _ _ HA f Hf) as Hz. cbv beta in Hz.
      rewrite (linf_len groups fs z SB) in Hz by (auto; apply (legal_z groups fs z SB)). unfold linf in Hz. apply wl_injective in Hz; auto; [apply (pose_factor_ok groups f Pf)|].
      apply (push_len groups f Pf); [intros v Hv; apply (kn groups fs z SB), mentioned_in; eauto | apply legal1 with (fs := fs); auto; apply (legal_z groups fs z SB)]. }
    assert (HRt : rooted (block C L x)).
    { intros v Hv Hr. unfold PBasin8.flatv in HB. pose proof (flat_zero _ _ _ HB v Hv) as Hz. unfold mask in Hz. rewrite Hr in Hz. rewrite Hz. f_equal. apply (TB x Hx v Hv). }
    pose proof (pinned_parts _ HU HRt) as Hb. assert (Hs : size fs (block C L x) = 0).
    { rewrite (size_flat fs). apply vnorm_eq; [lra|]. unfold PBasin8.flatv. rewrite flat_sumsq. rewrite (vsum_map_ext _ (fun _ => 0)) by (intros v Hv; rewrite Hb by auto; apply zero_sumsq). rewrite vsum_zeros. ring. }
    pose proof (extent_block E fs x Hx) as Hs'. fold C L in Hs'. rewrite Hs' in Hs. destruct (vnorm_sq x) as (_ & H1). rewrite Hs in H1. assert (H2 : sumsq x = 0) by lra. apply (proj1 (PVec.sumsq_zero _)) in H2. rewrite Hx in H2. exact H2. }
  exists (sqrt c). split; [apply sqrt_lt_R0; auto|]. intros eta Ht Hr. destruct (field_vec E fs eta Ht) as (x & Hx & Hag). rewrite <- (size_agree fs _ _ Hag), <- (LL_agree groups fs z _ _ Hag). rewrite extent_block by auto.
  specialize (Hlow x Hx). unfold F in Hlow. rewrite sumsq_app in Hlow. fold E C L in Hag.
  assert (EZ : sumsq (flatv (mask (block C L x))) = 0).
  { unfold PBasin8.flatv. rewrite flat_sumsq. rewrite (vsum_map_ext _ (fun _ => 0)); [rewrite vsum_zeros; ring|]. intros v Hv. unfold mask. destruct (is_root v) eqn:Er; [rewrite (Hag v Hv), (Hr v Hv Er)|]; apply zero_sumsq. }
  rewrite EZ, Rplus_0_r in Hlow. destruct (vnorm_sq x) as (X0 & X1). destruct (vnorm_sq (LL z (block C L x))) as (Y0 & Y1). unfold C, L in *. rewrite <- X1, <- Y1 in Hlow.
  pose proof (sqrt_pos c) as S0. pose proof (sqrt_sqrt c ltac:(lra)) as S1. apply Rsqr_incr_0_var; auto. unfold Rsqr. rewrite <- S1 in Hlow. lra.
Qed.

(* ---- splitting the unseen motions off a displacement ---- *)
Definition rootof (v : var) : var := match rt v with Some r => r | None => v end.
Lemma rootof_type v : v_ty (rootof v) = v_ty v.
Proof. unfold rootof. destruct (rt v) as [r|] eqn:Ev; auto. symmetry. apply joined_type, (pa_root _ _ HP v r Ev). Qed.
Lemma rootof_in v : In v (mentioned fs) -> In (rootof v) (mentioned fs).
Proof. intros Hv. unfold rootof. destruct (rt v) as [r|] eqn:Ev; auto. apply (joined_in r v); auto. apply (pa_root _ _ HP v r Ev). Qed.

Lemma adj_parts l : incl l (mentioned fs) -> exists c, 0 <= c /\ forall v, In v l -> forall d, length d = dimv v ->
  vnorm (mvec (lg_adj (groups (v_ty v)) (lg_mul (groups (v_ty v)) (lg_inv (groups (v_ty v)) (params (z v))) (params (z (rootof v))))) d) <= c * vnorm d.
Proof.
  induction l as [|v l IH]; intros Hl; [exists 0; split; [lra|]; intros v []|]. assert (Hk : known (groups (v_ty v))) by (apply (kn groups fs z SB); apply Hl; left; auto).
  destruct IH as (c1 & Hc1 & H1); [intros u Hu; apply Hl; right; auto|]. destruct (mvec_bound (dimv v) _ (proj2 (k_adj_shape (groups (v_ty v)) Hk (lg_mul (groups (v_ty v)) (lg_inv (groups (v_ty v)) (params (z v))) (params (z (rootof v))))))) as (c2 & Hc2 & H2).
  pose proof (Rmax_l c1 c2) as M1. pose proof (Rmax_r c1 c2) as M2. exists (Rmax c1 c2). split; [lra|]. intros u [<-|Hu] d Ld; (eapply Rle_trans; [first [apply H2; assumption | apply H1; assumption]|]; apply Rmult_le_compat_r; auto; apply norm_pos).
Qed.

Lemma resplit : exists C d, 0 <= C /\ 0 < d /\ forall e w, tangent E fs e -> size fs e <= d -> moved E fs z e w ->
  exists fr e' w', unseen_motion groups fs fr /\ tangent E fs e' /\ rooted e' /\ size fs e' <= C * size fs e /\ moved E fs z e' w' /\ carried groups fs fr w' w.
Proof.
  destruct (adj_parts (mentioned fs) (incl_refl _)) as (c & Hc & HA).
  destruct (compose_uniform groups (mentioned fs) (kn groups fs z SB)) as (K & dc & HK & Hdc & HC). set (N := INR (length (mentioned fs))). assert (HN0 : 0 <= N) by apply pos_INR.
  set (c1 := c + 1). set (B := c + 1 + K * (c1 * c1)). assert (Hc1 : 1 <= c1) by (unfold c1; lra). assert (HB : 1 <= B) by (unfold B; assert (0 <= K * (c1 * c1)) by (apply Rmult_le_pos; nra); lra).
  exists (N * B), (Rmin 1 (dc / c1)). split; [apply Rmult_le_pos; lra|]. split; [apply Rmin_pos; [lra | apply Rdiv_lt_0_compat; lra]|].
  intros e w Te Hs Hm. set (r := size fs e) in *. pose proof (size_pos fs e) as Pr. fold r in Pr. assert (R1 : r <= 1) by (eapply Rle_trans; [exact Hs | apply Rmin_l]).
  assert (R2 : c1 * r <= dc). { assert (r <= dc / c1) by (eapply Rle_trans; [exact Hs | apply Rmin_r]). apply (Rmult_le_compat_l c1) in H; [|lra]. replace (c1 * (dc / c1)) with dc in H by (field; lra). auto. }
  assert (Hcr : 0 <= c * r) by (apply Rmult_le_pos; auto).
  assert (Gz : forall v, In v (mentioned fs) -> sized_pose (groups (v_ty v)) (params (z v)) /\ unit_pose (groups (v_ty v)) (params (z v))).
  { intros v Hv. pose proof (sb_values _ _ _ SB v Hv) as ((p0 & Ep & Lp) & Uv). split; auto. unfold sized_pose. rewrite Ep, params_value. exact Lp. }
  set (a := fun v => mvec (lg_adj (groups (v_ty v)) (lg_mul (groups (v_ty v)) (lg_inv (groups (v_ty v)) (params (z v))) (params (z (rootof v))))) (vneg (e (rootof v)))).
  set (fr := fun v => match rt v with Some r => lg_mul (groups (v_ty r)) (lg_mul (groups (v_ty r)) (params (z r)) (lg_exp (groups (v_ty r)) (e r))) (lg_inv (groups (v_ty r)) (params (z r))) | None => lg_one (groups (v_ty v)) end).
  set (e' := fun v => match rt v with Some r => if eqb r v then vzero (dimv v) else lg_log (groups (v_ty v)) (lg_mul (groups (v_ty v)) (lg_exp (groups (v_ty v)) (a v)) (lg_exp (groups (v_ty v)) (e v))) | None => e v end).
  assert (HE : forall v, In v (mentioned fs) -> length (e' v) = dimv v /\ vnorm (e' v) <= B * r /\
    lg_mul (groups (v_ty v)) (fr v) (lg_mul (groups (v_ty v)) (params (z v)) (lg_exp (groups (v_ty v)) (e' v))) = lg_mul (groups (v_ty v)) (params (z v)) (lg_exp (groups (v_ty v)) (e v))).
  { intros v Hv. pose proof (kn groups fs z SB v Hv) as Hk. pose proof (Gz v Hv) as Gv. pose proof (rootof_in v Hv) as Hrv. pose proof (rootof_type v) as Tv. pose proof (Gz _ Hrv) as Gr. pose proof (Te v Hv) as Le. change (length (e v) = dimv v) in Le. pose proof (Te _ Hrv) as Lr. change (length (e (rootof v)) = dimv (rootof v)) in Lr. rewrite Tv in Gr, Lr.
    pose proof (size_part fs e v Hv) as Sv. fold r in Sv. pose proof (size_part fs e _ Hrv) as Sr. fold r in Sr.
    assert (Fr : fr v = match rt v with Some _ => lg_mul (groups (v_ty v)) (lg_mul (groups (v_ty v)) (params (z (rootof v))) (lg_exp (groups (v_ty v)) (e (rootof v)))) (lg_inv (groups (v_ty v)) (params (z (rootof v)))) | None => lg_one (groups (v_ty v)) end).
    { unfold fr. unfold rootof in Tv |- *. destruct (rt v) as [r0|]; auto. rewrite Tv. reflexivity. }
    rewrite Fr. unfold e'. destruct (rt v) as [r0|] eqn:Ev.
    - assert (Er : rootof v = r0) by (unfold rootof; rewrite Ev; auto). destruct (eqb r0 v) eqn:E1.
      + apply eqb_ok in E1. subst r0. rewrite E1 in *. split; [apply vzero_length|]. split; [rewrite zero_norm; apply Rmult_le_pos; lra|]. apply motion_root; auto.
      + assert (La : length (a v) = dimv v) by (apply k_adj_length; auto).
        assert (Q2 : vnorm (a v) <= c * r). { unfold a. eapply Rle_trans; [apply HA; auto; rewrite vneg_length; auto|]. rewrite norm_neg. apply Rmult_le_compat_l; auto. }
        destruct (HC v Hv (params (z v)) (a v) (e v) (c1 * r)) as (G1 & G2 & G3); auto; try (unfold c1; lra).
        split; auto. split.
        * eapply Rle_trans; [apply (norm_split _ (vadd (a v) (e v))); rewrite vadd_length; congruence|]. pose proof (norm_add (a v) (e v) ltac:(congruence)) as Q1.
          assert (Q4 : K * (c1 * r * (c1 * r)) <= K * (c1 * c1) * r). { replace (K * (c1 * r * (c1 * r))) with (K * (c1 * c1) * (r * r)) by ring. apply Rmult_le_compat_l; [apply Rmult_le_pos; nra|nra]. }
          unfold B. lra.
        * unfold lie_retract, rplus in G2. rewrite <- G2. apply motion_split; auto.
    - split; auto. split; [apply Rle_trans with (1 * r); [lra | apply Rmult_le_compat_r; auto]|]. apply one_left; auto. apply raw_mul_length; auto. }
  exists fr, e', (fun v => group_value (v_ty v) (lie_retract (groups (v_ty v)) (params (z v)) (e' v))). split; [|split; [|split; [|split; [|split]]]].
  - constructor.
    + intros v Hv. unfold fr. destruct (rt v) as [r0|] eqn:Ev; [|apply one_unit]. destruct (pa_root _ _ HP v r0 Ev) as (J & _). pose proof (joined_type r0 v J) as Ty. rewrite Ty. pose proof (joined_in r0 v J Hv) as H0. pose proof (kn groups fs z SB r0 H0) as Hk. destruct (Gz r0 H0) as (G1 & G2).
      apply unit_mul; auto; [apply unit_mul; auto; apply good_exp; auto | apply unit_inv; auto].
    + intros v mu n Hf. unfold fr. rewrite (pa_prior _ _ HP v mu n Hf). reflexivity.
    + intros va vb Tab n f Hb Hf. unfold fr. rewrite (pa_edge _ _ HP va vb Tab n f Hb Hf). destruct (between_inv _ _ _ _ _ Hb) as (Hty & _). rewrite Hty. reflexivity.
  - intros v Hv. apply HE; auto.
  - intros v Hv Hr. unfold e'. unfold is_root in Hr. destruct (rt v) as [r0|]; [rewrite Hr; auto | discriminate].
  - rewrite (size_flat fs). unfold PBasin8.flatv. rewrite Rmult_assoc. apply flat_norm. intros v Hv. apply HE; auto.
  - intros v Hv. reflexivity.
  - intros v Hv. specialize (Hm v Hv). cbn in Hm. injection Hm as Hm. rewrite <- Hm. rewrite params_value. f_equal. destruct (HE v Hv) as (_ & _ & G). unfold lie_retract, rplus. symmetry. exact G.
Qed.
End Graph.
