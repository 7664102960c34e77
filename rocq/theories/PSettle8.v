(* Proofs: two priors on one pose, as a factor graph. *)
From Coq Require Import List Arith Bool Lia Reals Lra.
From Verif Require Import Num NumR Py Arr MLayout MAssign MNoise MSparse MFactor MGraph MLie MPose SpecNoise SpecLayout SpecTree SpecAssign SpecLie SpecGraph SpecSparse SpecDeriv SpecPose SpecZero SpecSpatial SpecTwin SpecInv SpecOrder SpecBook SpecSettle.
From Verif Require Import PBase PVec PLayout PAssign PGraph PGraph4 PHold PNoise PGraph2 PDeriv PLie PPose PFrame PZero PJacZero PSpatial PSpatial2 PSpatial3 PSpatial4 PSolverR PDescent PLoss PTwin PTwin2 PBook PBasin5 PSettle1 PSettle2 PSettle3 PSettle4 PSettle7.
Import ListNotations.
Local Open Scope R_scope.

Section Graph.
Variable groups : vty -> lie_ops R (list R).
Variable v : var.
Let raw := groups (v_ty v).
Hypothesis Hk : known raw.
Let E := pose_env groups.
Variables mu1 mu2 : list R.
Hypothesis H1 : legal_pose raw mu1.
Hypothesis H2 : legal_pose raw mu2.
Variables n1 n2 : noise R.
Notation fs := (two_priors v mu1 n1 mu2 n2).

Lemma mentioned_two : mentioned fs = [v].
Proof. unfold mentioned, two_priors. cbn. rewrite (proj2 (var_eqb_ok v v) eq_refl). cbn. auto. Qed.
Lemma two_factors n0 s1 s2 : noise_dim n0 = lg_dim raw -> multiple n0 s1 n1 -> multiple n0 s2 n2 -> forall f, In f fs -> pose_factor groups f.
Proof.
  intros Hd (_ & O1 & D1 & _) (_ & O2 & D2 & _) f [<-|[<-|[]]]; constructor; auto; try (eapply eq_trans; eauto); eexists; (split; [reflexivity|]); [apply H1 | apply H2].
Qed.

(* ---- residuals and Jacobians ---- *)
Lemma two_white x val mu n : val v = group_value (v_ty v) x -> whitened_at E val (prior_make v (group_value (v_ty v) mu) n) = whiten_residual n (prior_residual raw mu x).
Proof. intros Hv. unfold whitened_at, residual_at. cbn [prior_make f_vars f_noise f_cls f_params map]. rewrite Hv. change (whiten_residual n (prior_residual raw (params (group_value (v_ty v) mu)) (params (group_value (v_ty v) x))) = whiten_residual n (prior_residual raw mu x)). rewrite !params_value. reflexivity. Qed.
Lemma two_cost x val : val v = group_value (v_ty v) x ->
  cost_at E fs val = match whiten_residual n1 (prior_residual raw mu1 x) with Ok w => sumsq w | Err _ => 0 end + match whiten_residual n2 (prior_residual raw mu2 x) with Ok w => sumsq w | Err _ => 0 end.
Proof.
  intros Hv. unfold cost_at, two_priors. cbn [map]. rewrite !vsum_cons, vsum_nil, !(two_white x val _ _ Hv). ring.
Qed.
Lemma res_len mu x : length (prior_residual raw mu x) = lg_dim raw.
Proof. unfold prior_residual, rminus. apply log_len; auto. Qed.

Section Noise.
Variable n0 : noise R.
Hypothesis L0 : linear_noise n0.
Hypothesis O0 : noise_ok n0.
Hypothesis D0 : noise_dim n0 = lg_dim raw.
Variables s1 s2 : R.
Hypothesis M1 : multiple n0 s1 n1.
Hypothesis M2 : multiple n0 s2 n2.

Lemma multiple_white s n r : multiple n0 s n -> length r = lg_dim raw -> whiten_residual n r = Ok (vscale s (wl n0 r)).
Proof. intros (_ & _ & _ & H) Hr. apply H; [rewrite D0; auto|]. apply wl_ok; auto. rewrite D0. auto. Qed.
Lemma multiple_wl s n r : multiple n0 s n -> length r = lg_dim raw -> wl n r = vscale s (wl n0 r).
Proof. intros H Hr. unfold wl. rewrite (multiple_white s n r H Hr). auto. Qed.
Lemma base_of n : linear_noise n -> base n = n /\ forall x, beta n x = 1.
Proof. destruct n; cbn; auto. intros []. Qed.

Lemma two_pull x val mu n s xi : multiple n0 s n -> val v = group_value (v_ty v) x -> length (xi v) = lg_dim raw ->
  pull_at E val xi (prior_make v (group_value (v_ty v) mu) n) = - (s * s * vdot (wl n0 (prior_residual raw mu x)) (wl n0 (xi v))).
Proof.
  intros M Hv Hx. pose proof M as (Ln & On & Dn & _). unfold pull_at. rewrite (two_white x val mu n Hv), (multiple_white s n _ M (res_len mu x)).
  set (w := vscale s (wl n0 (prior_residual raw mu x))). assert (Lw : length w = noise_dim n).
  { unfold w. rewrite vscale_length. destruct (wl_ok n0 (prior_residual raw mu x) O0) as (_ & ->); [rewrite D0; apply res_len | auto]. }
  destruct (pushed_white E n w [v] xi [neg_eye (lg_dim raw)] On Lw) as (Ws & EW & HP).
  - constructor; [|constructor]. rewrite Dn, D0. destruct (neg_eye_shape (lg_dim raw)). split; auto.
  - intros u [<-|[]]. exact Hx.
  - change (whitened_jacobians_at E val (prior_make v (group_value (v_ty v) mu) n) w) with (traverse (fun J => whiten_jacobian n J w) [neg_eye (lg_dim raw)]). rewrite EW.
    change (residual_dim (prior_make v (group_value (v_ty v) mu) n)) with (noise_dim n). cbn [prior_make f_vars]. rewrite HP. destruct (base_of n Ln) as (-> & ->). rewrite vscale_one.
    unfold pushed. cbn [zipw fold_right]. rewrite neg_eye_mvec by auto. rewrite Dn, D0, add_zero_r by (rewrite vneg_length; auto).
    rewrite (multiple_wl s n _ M) by (rewrite vneg_length; auto).
    assert (Ev : vneg (xi v) = vscale (-1) (xi v)). { unfold vneg, vscale. apply map_ext. intros y. cbn. ring. }
    rewrite Ev, wl_scale by (auto; rewrite D0; auto). unfold w. rewrite vdot_scale_l, !vdot_scale_r. ring.
Qed.

Lemma two_balanced k val : 0 < k < 1 -> s1 * s1 * k = s2 * s2 * (1 - k) -> val v = group_value (v_ty v) (on_the_way raw k mu1 mu2) -> balanced E fs val.
Proof.
  intros Hkk Hs Hv xi Tx. assert (Hx : length (xi v) = lg_dim raw) by (apply Tx; rewrite mentioned_two; left; auto).
  unfold pull, two_priors. cbn [map]. rewrite !vsum_cons, vsum_nil, (two_pull _ val mu1 n1 s1 xi M1 Hv Hx), (two_pull _ val mu2 n2 s2 xi M2 Hv Hx).
  rewrite (mid_first raw Hk mu1 mu2 H1 H2 k Hkk), (mid_second raw Hk mu1 mu2 H1 H2 k Hkk). set (d := lg_log raw _). assert (Ld : length d = noise_dim n0) by (rewrite D0; apply log_len; auto).
  rewrite !wl_scale, !vdot_scale_l by auto. set (X := vdot _ _). transitivity ((s1 * s1 * k - s2 * s2 * (1 - k)) * X); [ring|]. rewrite Hs. ring.
Qed.
End Noise.

Section Isotropic.
Variables s1 s2 : R.
Hypothesis M1 : scales n1 (lg_dim raw) s1.
Hypothesis M2 : scales n2 (lg_dim raw) s2.
Lemma iso_cost x val : val v = group_value (v_ty v) x -> cost_at E fs val = s1 * s1 * sumsq (prior_residual raw mu1 x) + s2 * s2 * sumsq (prior_residual raw mu2 x).
Proof.
  intros Hv. destruct M1 as (_ & _ & _ & W1). destruct M2 as (_ & _ & _ & W2). rewrite (two_cost x val Hv), W1, W2 by apply res_len. rewrite !sumsq_scale. ring.
Qed.
Variable k : R.
Hypothesis Hkk : 0 < k < 1.
Hypothesis Hs : s1 * s1 * k = s2 * s2 * (1 - k).
Notation d := (lg_log raw (lg_mul raw (lg_inv raw mu1) mu2)).
Lemma iso_mid val : val v = group_value (v_ty v) (on_the_way raw k mu1 mu2) -> cost_at E fs val = (s1 * s1 * (k * k) + s2 * s2 * ((1 - k) * (1 - k))) * sumsq d.
Proof.
  intros Hv. rewrite (iso_cost _ val Hv), (mid_first raw Hk mu1 mu2 H1 H2 k Hkk), (mid_second raw Hk mu1 mu2 H1 H2 k Hkk), !sumsq_scale. ring.
Qed.

(* rotations: the cost is least there *)
Lemma turning_least x val val' : turning raw -> legal_pose raw x -> val v = group_value (v_ty v) (on_the_way raw k mu1 mu2) -> val' v = group_value (v_ty v) x ->
  cost_at E fs val <= cost_at E fs val'.
Proof.
  intros Ht Hx Hv Hv'. rewrite (iso_mid val Hv), (iso_cost x val' Hv'). set (a := vnorm (prior_residual raw mu1 x)). set (b := vnorm (prior_residual raw mu2 x)).
  assert (Ea : sumsq (prior_residual raw mu1 x) = a * a) by (symmetry; apply vnorm_sq). assert (Eb : sumsq (prior_residual raw mu2 x) = b * b) by (symmetry; apply vnorm_sq).
  assert (Ed : sumsq d = vnorm d * vnorm d) by (symmetry; apply vnorm_sq). rewrite Ea, Eb, Ed.
  assert (Gx : legal_pose raw (lg_mul raw (lg_inv raw x) mu1)) by (apply legal_mul; auto; apply legal_inv; auto).
  assert (Gy : legal_pose raw (lg_mul raw (lg_inv raw x) mu2)) by (apply legal_mul; auto; apply legal_inv; auto).
  assert (Htri : vnorm d <= a + b).
  { unfold a, b, prior_residual, rminus. rewrite <- (log_inv_norm raw (lg_mul raw (lg_inv raw x) mu1)) by auto.
    replace (lg_mul raw (lg_inv raw mu1) mu2) with (lg_mul raw (lg_inv raw (lg_mul raw (lg_inv raw x) mu1)) (lg_mul raw (lg_inv raw x) mu2)).
    - apply log_triangle; auto. apply legal_inv; auto.
    - rewrite inv_of_mul by (auto; first [apply H1 | apply (legal_inv raw Ht x Hx)]). rewrite inv_of_inv by (auto; apply Hx). rewrite raw_assoc by auto. f_equal. apply cancel_right; auto; [apply Hx | apply H2]. }
  assert (P1 : 0 <= vnorm d) by apply vnorm_sq. assert (P2 : 0 <= a) by apply vnorm_sq. assert (P3 : 0 <= b) by apply vnorm_sq. set (D := vnorm d) in *. clearbody a b D.
  set (p := s1 * s1) in *. set (q := s2 * s2) in *. assert (0 <= p) by (unfold p; nra). assert (0 <= q) by (unfold q; nra). clearbody p q. clear - Hkk Hs Htri P1 P2 P3 H H0.
  assert (Hl : (p * (k * k) + q * ((1 - k) * (1 - k))) * (D * D) <= (p * (k * k) + q * ((1 - k) * (1 - k))) * ((a + b) * (a + b))).
  { apply Rmult_le_compat_l; [|apply Rmult_le_compat; lra]. assert (0 <= p * (k * k)) by (apply Rmult_le_pos; nra). assert (0 <= q * ((1 - k) * (1 - k))) by (apply Rmult_le_pos; nra). lra. }
  eapply Rle_trans; [exact Hl|]. 
  assert (Ep : q * (1 - k) = p * k) by lra.
  (* p a^2 + q b^2 - p k (a + b)^2 = (p (1-k)) (a - k/(1-k) b)^2 *)
  replace (p * (k * k) + q * ((1 - k) * (1 - k))) with (p * k) by (replace (q * ((1 - k) * (1 - k))) with (q * (1 - k) * (1 - k)) by ring; rewrite Ep; ring).
  assert (Hq : q = p * k / (1 - k)) by (rewrite <- Ep; field; lra).
  assert (HH : p * (a * a) + q * (b * b) - p * k * ((a + b) * (a + b)) = p / (1 - k) * (((1 - k) * a - k * b) * ((1 - k) * a - k * b))) by (rewrite Hq; field; lra).
  assert (0 <= p / (1 - k) * (((1 - k) * a - k * b) * ((1 - k) * a - k * b))).
  { apply Rmult_le_pos; [|apply Rle_0_sqr]. apply Rmult_le_pos; auto. left. apply Rinv_0_lt_compat. lra. }
  lra.
Qed.
End Isotropic.
End Graph.
