(* Proofs: two priors on one pose. *)
From Coq Require Import List Arith Bool Lia Reals Lra.
From Verif Require Import Num NumR Py Arr MLayout MAssign MNoise MSparse MFactor MGraph MLie MPose SpecNoise SpecLayout SpecTree SpecAssign SpecLie SpecGraph SpecSparse SpecDeriv SpecPose SpecZero SpecSpatial SpecTwin SpecInv SpecOrder SpecBook SpecSettle.
From Verif Require Import PBase PVec PLayout PAssign PGraph PGraph4 PHold PNoise PGraph2 PDeriv PLie PPose PFrame PZero PJacZero PSpatial PSpatial2 PSpatial3 PSpatial4 PSolverR PDescent PLoss PTwin PTwin2 PBook PBasin5 PSettle1 PSettle2 PSettle3 PSettle4.
Import ListNotations.
Local Open Scope R_scope.

(* less than half a turn *)
Inductive short (raw : lie_ops R (list R)) (d : list R) : Prop :=
| short_planar : planar raw -> Rabs (nth (lg_dim raw - 1) d 0) < PI -> short raw d
| short_spatial : spatial raw -> rotation_angle raw d < PI -> short raw d.

Section Group.
Variable raw : lie_ops R (list R).
Hypothesis Hk : known raw.
Notation "a ** b" := (lg_mul raw a b) (at level 40, left associativity).
Notation "a ^-" := (lg_inv raw a) (at level 2, format "a ^-").
Notation good p := (legal_pose raw p).

Lemma log_exp_short d : length d = lg_dim raw -> short raw d -> lg_log raw (lg_exp raw d) = d.
Proof.
  intros Hd [Hp Hs|Hp Hs]; [|apply log_exp; auto]. destruct Hp.
  - rewrite (rp_exp _ _ _ so2_represented), (rp_log _ _ _ so2_represented) by auto. apply (ll_log_exp _ _ so2_laws); auto. apply Rabs_def2 in Hs. unfold near_so2. cbn in Hs. lra.
  - rewrite (rp_exp _ _ _ se2_represented), (rp_log _ _ _ se2_represented) by auto. apply (ll_log_exp _ _ se2_laws); auto. apply Rabs_def2 in Hs. unfold near_se2. cbn in Hs. lra.
Qed.
Lemma planar_rep p : planar raw -> good p -> (exists a, raw = raw_so2 /\ p = rot_params a) \/ (exists a, raw = raw_se2 /\ p = pose_params a).
Proof.
  intros Hp (Lp & Up). destruct Hp.
  - left. destruct (so2_rot p Lp (proj1 Up planar_so2)) as (a & ->). eauto.
  - right. cbn in Lp. destruct p as [|c [|s [|x [|y [|]]]]]; try discriminate. pose proof (proj1 Up planar_se2) as U. unfold norm2 in U. cbn [nth] in U. exists (mkPose (mkRot c s U) x y). auto.
Qed.
Lemma exp_log_known p : good p -> same_pose raw (lg_exp raw (lg_log raw p)) p.
Proof.
  intros Hg. destruct Hk as [Hp|Hs]; [|apply exp_log; auto; apply Hg]. left. destruct (planar_rep p Hp Hg) as [(a & -> & ->)|(a & -> & ->)].
  - rewrite (rp_log _ _ _ so2_represented), (rp_exp _ _ _ so2_represented) by reflexivity. f_equal. apply (ll_exp_log _ _ so2_laws).
  - rewrite (rp_log _ _ _ se2_represented), (rp_exp _ _ _ se2_represented) by reflexivity. f_equal. apply (ll_exp_log _ _ se2_laws).
Qed.
Lemma log_len p : length (lg_log raw p) = lg_dim raw.
Proof. destruct Hk as [[]|Hs]; auto. apply log_length; auto. Qed.
Lemma log_short p k : good p -> -1 < k < 1 -> short raw (vscale k (lg_log raw p)).
Proof.
  intros Hg Hkk. pose proof PI_RGT_0 as Hpi. assert (Hb : forall t, - PI <= t <= PI -> Rabs (k * t) < PI).
  { intros t Ht. rewrite Rabs_mult. assert (Rabs k < 1) by (apply Rabs_def1; lra). assert (Rabs t <= PI) by (apply Rabs_le; lra). pose proof (Rabs_pos k). pose proof (Rabs_pos t). nra. }
  destruct Hk as [Hp|Hs].
  - apply short_planar; auto. destruct (planar_rep p Hp Hg) as [(a & -> & ->)|(a & -> & ->)].
    + rewrite (rp_log _ _ _ so2_represented). cbn. pose proof (angle_bound a). apply Hb. lra.
    + rewrite (rp_log _ _ _ se2_represented). cbn. pose proof (angle_bound (pr a)). apply Hb. lra.
  - apply short_spatial; auto. destruct Hg as (Lp & Up). assert (Hl : forall q, length q = 4%nat -> norm4 q = 1 -> len3 (vscale k (quat_log q)) < PI).
    { intros q Lq Nq. rewrite len3_line by (unfold quat_log, vscale; rewrite map_length; auto). pose proof (quat_log_len q Lq Nq). pose proof (len3_pos (quat_log q)). assert (Rabs k < 1) by (apply Rabs_def1; lra). pose proof (Rabs_pos k). nra. }
    destruct Hs; unfold rotation_angle; cbn [lg_dim lg_log raw_so3 raw_se3].
    + cbn [Nat.sub]. rewrite skipn_O. apply Hl; auto. apply (proj2 Up spatial_so3).
    + rewrite se3_log_form. unfold vscale at 1. rewrite map_app, skipn_app. rewrite map_length, lin3_length by reflexivity. rewrite skipn_all2 by (rewrite map_length, lin3_length by reflexivity; auto). cbn [Nat.sub app]. rewrite skipn_O.
      apply Hl; [reflexivity|]. exact (proj2 Up spatial_se3).
Qed.
Lemma same_log_short p d : sized_pose raw p -> length d = lg_dim raw -> short raw d -> same_pose raw p (lg_exp raw d) -> lg_log raw p = d.
Proof.
  intros Lp Ld Hs [->|(Hsp & Hr)]; [apply log_exp_short; auto|]. rewrite <- (log_exp_short d Ld Hs). apply same_log; auto; [apply sized_exp; auto | | right; auto].
  apply exp_first_nonzero; auto. destruct Hs; auto. exfalso. eapply not_both; eauto.
Qed.
Lemma exp_minus k d : length d = lg_dim raw -> (lg_exp raw (vscale k d))^- = lg_exp raw (vscale (- k) d).
Proof.
  intros Hd. pose proof (good_exp raw Hk (vscale k d)) as (Lx & Ux). pose proof (good_exp raw Hk (vscale (- k) d)) as (Ly & Uy).
  pose proof (exp_add raw (- k) k d Hk Hd) as H. replace (- k + k) with 0 in H by ring. assert (Ez : vscale 0 d = vzero (lg_dim raw)).
  { rewrite <- Hd. clear. unfold vscale, vzero. induction d; cbn; f_equal; auto. ring. }
  rewrite Ez, (exp_zero_one raw Hk) in H. pose proof (cancel_left raw _ _ Hk Uy Lx) as G. rewrite H, mul_one in G by (auto; apply sized_inv; auto).
  rewrite <- G at 1. apply inv_of_inv; auto.
Qed.

Section Two.
Variables mu1 mu2 : list R.
Hypothesis H1 : good mu1.
Hypothesis H2 : good mu2.
Variable k : R.
Hypothesis Hkk : 0 < k < 1.
Let d := lg_log raw (mu1^- ** mu2).
Let m := on_the_way raw k mu1 mu2.
Lemma gap_good : good (mu1^- ** mu2). Proof. apply good_mul, H2; auto. apply good_inv; auto. Qed.
Lemma mid_good : good m. Proof. apply good_mul; auto. apply good_exp; auto. Qed.
Lemma mid_inv q : sized_pose raw q -> m^- ** q = lg_exp raw (vscale (- k) d) ** (mu1^- ** q).
Proof.
  intros Lq. unfold m, on_the_way, lie_retract, rplus. fold d. rewrite inv_of_mul by (auto; first [apply H1 | apply (good_exp raw Hk)]). rewrite exp_minus by (apply log_len).
  apply raw_assoc; auto.
Qed.
Lemma mid_first : prior_residual raw mu1 m = vscale (- k) d.
Proof.
  unfold prior_residual, rminus. rewrite mid_inv by apply H1. rewrite (inv_l raw Hk mu1) by apply H1. rewrite mul_one by (auto; apply good_exp; auto).
  apply log_exp_short; [rewrite vscale_length; apply log_len|]. apply log_short; [apply gap_good | lra].
Qed.
Lemma mid_second : prior_residual raw mu2 m = vscale (1 - k) d.
Proof.
  unfold prior_residual, rminus. rewrite mid_inv by apply H2.
  apply same_log_short; [apply sized_mul; auto | rewrite vscale_length; apply log_len | apply log_short; [apply gap_good | lra]|].
  replace (1 - k) with (- k + 1) by ring. rewrite <- (exp_add raw (- k) 1 d Hk) by apply log_len. apply same_sym. apply same_mul; auto; [apply good_exp; auto | apply gap_good|].
  rewrite vscale_one. apply exp_log_known, gap_good.
Qed.
End Two.
End Group.
