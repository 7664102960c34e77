(* Proofs: distances and gradients on the groups of rotations. *)
From Coq Require Import List Arith Bool Lia Reals Lra.
From Verif Require Import Num NumR Py Arr MLie SpecNoise SpecDeriv SpecLie SpecPose SpecZero SpecSpatial SpecSettle.
From Verif Require Import PVec PDeriv PLie PPose PFrame PZero PJacZero PSpatial PSpatial2 PSpatial3 PSolverR PLoss PSettle1 PSettle2.
Import ListNotations.
Local Open Scope R_scope.

Lemma turning_known raw : turning raw -> known raw.
Proof. intros []; [left | right]; constructor. Qed.
Lemma norm1 x : vnorm [x] = Rabs x.
Proof. apply vnorm_eq; [apply Rabs_pos|]. rewrite sumsq_cons. change (sumsq (T := R) []) with 0. rewrite Rplus_0_r. exact (Rsqr_abs x). Qed.

(* SO(2) *)
Lemma so2_rot q : length q = 2%nat -> norm2 q = 1 -> exists a : rot, q = rot_params a.
Proof. intros Hl Hn. destruct q as [|c [|s [|]]]; try discriminate. unfold norm2 in Hn. cbn [nth] in Hn. exists (mkRot c s Hn). reflexivity. Qed.
Lemma so2_log_rot a : lg_log raw_so2 (rot_params a) = [angle a].
Proof. cbn [lg_log raw_so2]. unfold rot_params. cbn [nth]. rewrite atan2_unit. reflexivity. Qed.
Lemma angle_abs a : Rabs (angle a) = acos (rc a).
Proof. unfold angle. pose proof (acos_bound (rc a)). destruct (Rlt_dec (rs a) 0); [rewrite Rabs_Ropp|]; rewrite Rabs_right; lra. Qed.
Lemma acos_sum' a b c : -1 <= a <= 1 -> -1 <= b <= 1 -> -1 <= c <= 1 -> a * b - sqrt (1 - Rsqr a) * sqrt (1 - Rsqr b) <= c -> acos c <= acos a + acos b.
Proof.
  intros Ha Hb Hc H. pose proof PI_RGT_0 as Hpi. pose proof (acos_bound a) as Ba. pose proof (acos_bound b) as Bb. pose proof (acos_bound c) as Bc.
  destruct (Rle_or_lt (acos c) (acos a + acos b)) as [|Hlt]; auto. exfalso.
  assert (cos (acos c) < cos (acos a + acos b)) by (apply cos_decreasing_1; lra).
  rewrite cos_plus, !cos_acos, !sin_acos in * by lra. lra.
Qed.
Lemma so2_triangle a b : Rabs (angle (rot_mul a b)) <= Rabs (angle a) + Rabs (angle b).
Proof.
  rewrite !angle_abs. apply acos_sum'; try apply rc_bound. rewrite <- !rs_sqr. cbn [rc rot_mul].
  change (rs a * rs a) with (Rsqr (rs a)). change (rs b * rs b) with (Rsqr (rs b)). rewrite !sqrt_Rsqr_abs.
  pose proof (Rle_abs (rs a * rs b)) as H. rewrite Rabs_mult in H. lra.
Qed.

Lemma log_triangle raw a b : turning raw -> legal_pose raw a -> legal_pose raw b -> vnorm (lg_log raw (lg_mul raw a b)) <= vnorm (lg_log raw a) + vnorm (lg_log raw b).
Proof.
  intros Ht (La & Ua) (Lb & Ub). destruct Ht.
  - destruct (so2_rot a La (proj1 Ua planar_so2)) as (x & ->). destruct (so2_rot b Lb (proj1 Ub planar_so2)) as (y & ->).
    rewrite (rp_mul _ _ _ so2_represented), !so2_log_rot, !norm1. apply so2_triangle.
  - cbn [lg_log lg_mul raw_so3]. rewrite !norm_len by reflexivity. apply quat_triangle; auto; [apply (proj2 Ua) | apply (proj2 Ub)]; constructor.
Qed.
Lemma log_inv_norm raw a : turning raw -> legal_pose raw a -> vnorm (lg_log raw (lg_inv raw a)) = vnorm (lg_log raw a).
Proof.
  intros Ht (La & Ua). destruct Ht.
  - destruct (so2_rot a La (proj1 Ua planar_so2)) as (x & ->). rewrite (rp_inv _ _ _ so2_represented), !so2_log_rot, !norm1, !angle_abs. reflexivity.
  - cbn [lg_log lg_inv raw_so3]. rewrite !norm_len by reflexivity. pose proof (proj2 Ua spatial_so3) as Hn. assert (Hc : norm4 (quat_conj a) = 1) by (rewrite <- Hn; unfold norm4, quat_conj; cbn [nth]; ring).
    rewrite !quat_angle by auto. unfold quat_conj. cbn [nth]. reflexivity.
Qed.
Lemma log_bound raw a : turning raw -> legal_pose raw a -> vnorm (lg_log raw a) <= PI.
Proof.
  intros Ht (La & Ua). destruct Ht.
  - destruct (so2_rot a La (proj1 Ua planar_so2)) as (x & ->). rewrite so2_log_rot, norm1, angle_abs. apply acos_bound.
  - cbn [lg_log raw_so3]. rewrite norm_len by reflexivity. apply quat_log_len; auto. apply (proj2 Ua). constructor.
Qed.

(* the squared length along two retractions *)
Lemma swing_deriv raw q d e : turning raw -> legal_pose raw q -> vnorm (lg_log raw q) < PI -> length d = lg_dim raw -> length e = lg_dim raw ->
  derivable_pt_lim (fun t => sumsq (lg_log raw (lg_mul raw (lg_inv raw (lg_exp raw (vscale t d))) (lg_mul raw (lg_exp raw (vscale t e)) q)))) 0 (2 * vdot (lg_log raw q) (vsub e d)).
Proof.
  intros Ht (Lq & Uq). destruct Ht; intros Hb Hd He.
  - destruct (so2_rot q Lq (proj1 Uq planar_so2)) as (a & ->). rewrite so2_log_rot, norm1 in *. destruct d as [|d [|]]; try discriminate. destruct e as [|e [|]]; try discriminate.
    assert (HF : vderiv (fun t => [angle (rot_mul a (rot_exp (t * (e - d))))]) [e - d]).
    { assert (Hk : 0 < Rabs (e - d) + 1) by (pose proof (Rabs_pos (e - d)); lra). set (gap := PI - Rabs (angle a)). assert (Hg : 0 < gap) by (unfold gap; lra).
      apply (vderiv_local _ [angle a] _ (gap / (Rabs (e - d) + 1))); auto; [apply Rdiv_lt_0_compat; auto|].
      intros t Ht. cbn. f_equal. rn.
      assert (Htu : Rabs (t * (e - d)) < gap).
      { rewrite Rabs_mult. apply Rle_lt_trans with (Rabs t * (Rabs (e - d) + 1)); [apply Rmult_le_compat_l; [apply Rabs_pos | lra]|].
        apply Rlt_le_trans with (gap / (Rabs (e - d) + 1) * (Rabs (e - d) + 1)); [apply Rmult_lt_compat_r; auto|]. right. field. lra. }
      rewrite <- (exp_angle a) at 1. rewrite <- rot_exp_plus. apply angle_exp. unfold gap in *. pose proof (Rle_abs (angle a)). pose proof (Rle_abs (- angle a)) as H2. rewrite Rabs_Ropp in H2. apply Rabs_def2 in Htu. lra. }
    pose proof (sumsq_deriv _ _ HF) as HS. cbv beta in HS.
    replace (2 * vdot [angle a] (vsub [e] [d])) with (2 * vdot [angle (rot_mul a (rot_exp (0 * (e - d))))] [e - d]) by (rewrite Rmult_0_l, rot_exp_0, rot_one_r; reflexivity).
    eapply deriv_ext; [|exact HS]. intros t. cbv beta. f_equal.
    change (lg_exp raw_so2 (vscale t [d])) with (rot_params (rot_exp (t * d))). change (lg_exp raw_so2 (vscale t [e])) with (rot_params (rot_exp (t * e))).
    rewrite (rp_inv _ _ _ so2_represented), !(rp_mul _ _ _ so2_represented), so2_log_rot. do 2 f_equal.
    cbn [lg_mul lg_inv SO2]. rewrite <- rot_exp_neg. rewrite rot_assoc, <- rot_exp_plus, rot_comm. do 2 f_equal. ring.
  - pose proof (proj2 Uq spatial_so3) as Hn. cbn [lg_log lg_mul lg_inv lg_exp lg_dim lg_one raw_so3] in *. rewrite norm_len in Hb by reflexivity. rewrite quat_angle in Hb by auto.
    change (length q = 4%nat) in Lq. pose proof (abs_unit q Hn) as (A0 & A1).
    assert (Hz : q.[0] <> 0). { intros H. rewrite H, Rabs_R0, acos_0 in Hb. lra. }
    destruct (Rle_lt_or_eq_dec _ _ A1) as [Hlt|Heq]; [apply (swung_deriv d e q); auto|].
    (* the rotation is the identity *)
    assert (Hq1 : q.[1] = 0 /\ q.[2] = 0 /\ q.[3] = 0).
    { assert (q.[0] * q.[0] = 1) by (change (Rsqr q.[0] = 1); rewrite Rsqr_abs, Heq; unfold Rsqr; ring). unfold norm4 in Hn.
      assert (Hs : q.[1] * q.[1] + q.[2] * q.[2] + q.[3] * q.[3] = 0) by lra. pose proof (Rle_0_sqr q.[1]) as S1. pose proof (Rle_0_sqr q.[2]) as S2. pose proof (Rle_0_sqr q.[3]) as S3. unfold Rsqr in *.
      repeat split; apply Rsqr_0_uniq; unfold Rsqr; lra. }
    assert (El : quat_log q = vzero 3) by (apply quat_log_zero; auto). rewrite El.
    replace (2 * vdot (vzero 3) (vsub e d)) with (2 * vdot (quat_log (quat_mul (quat_conj (quat_exp (vscale 0 d))) (quat_exp (vscale 0 e)))) (vsub e d)).
    2: { f_equal. f_equal. destruct (vcont_exp d Hd) as (_ & ->). destruct (vcont_exp e He) as (_ & ->).
         replace (quat_mul (quat_conj [1; 0; 0; 0]) [1; 0; 0; 0]) with [1; 0; 0; 0] by (unfold quat_mul, quat_conj; cbn [nth]; lists; ring). apply (quat_log_zero [1; 0; 0; 0]); auto. }
    destruct (spatial_pair raw_so3 d e spatial_so3 Hd He) as (HV & eps & Hp & Hne). cbn [lg_log lg_mul lg_inv lg_exp raw_so3] in HV, Hne.
    apply (deriv_local (fun t => sumsq (quat_log (quat_mul (quat_conj (quat_exp (vscale t d))) (quat_exp (vscale t e)))))); [|apply (sumsq_deriv _ _ HV)].
    exists eps. split; auto. intros t Ht. specialize (Hne t Ht). f_equal. symmetry. rewrite <- quat_assoc. set (g := quat_mul (quat_conj _) _) in *.
    destruct Hq1 as (q1 & q2 & q3). assert (Hcase : q = [1; 0; 0; 0] \/ q = map Ropp [1; 0; 0; 0]) by (apply rot_opp; auto).
    destruct Hcase as [->| ->]; [f_equal; unfold g, quat_mul; cbn [nth]; lists; ring|].
    rewrite <- (quat_log_opp g) by (auto; reflexivity). f_equal. unfold g, quat_mul. cbn [nth map]. lists; ring.
Qed.
