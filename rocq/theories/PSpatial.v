(* Proofs: laws of the exponential and logarithm of SO(3) and SE(3) on parameter vectors, up
   to the sign of the quaternion. *)
From Coq Require Import List Arith Bool Lia Reals Lra.
From Verif Require Import Num NumR Py Arr MLie SpecNoise SpecLie SpecPose SpecZero.
From Verif Require Import PVec PLie PPose PFrame PZero.
Import ListNotations.
Local Open Scope R_scope.

Lemma lincomb (e a b : R) : e = 0 -> a - b = e -> a = b.
Proof. intros -> H. lra. Qed.
Ltac three v := destruct v as [|? [|? [|? [|? v]]]]; try discriminate.
Ltac vecs := unfold vadd, vscale, vneg, cross; cbn [nth zipw map nadd nmul nneg NumR].

(* ---- the numbers of one exponential: c = cos (t/2), k = sin (t/2) / t, T = t^2, b = (t - sin t) / t^3 ---- *)
Definition sq3 (d : list R) : R := d.[0] * d.[0] + d.[1] * d.[1] + d.[2] * d.[2].
Definition ec (d : list R) : R := cos (len3 d / 2).
Definition ek (d : list R) : R := half_sinc (len3 d).
Definition eb (d : list R) : R := if Req_EM_T (len3 d) 0 then 0 else (len3 d - sin (len3 d)) / (len3 d * len3 d * len3 d).
Lemma len3_eq d : len3 d * len3 d = sq3 d. Proof. apply len3_sqr. Qed.
Lemma len3_pos d : 0 <= len3 d. Proof. apply sqrt_pos. Qed.
Lemma sin_half t : sin t = 2 * sin (t / 2) * cos (t / 2).
Proof. rewrite <- sin_2a. f_equal. field. Qed.
Lemma cos_half t : cos t = 1 - 2 * sin (t / 2) * sin (t / 2).
Proof. replace t with (2 * (t / 2)) at 1 by field. rewrite cos_2a_sin. ring. Qed.
Lemma exp_unit d : ec d * ec d + ek d * ek d * sq3 d = 1.
Proof.
  pose proof (quat_exp_norm d) as H. unfold norm4, quat_exp in H. cbn [nth] in H. unfold ec, ek, sq3. rewrite <- H. ring.
Qed.
Lemma exp_third d : eb d * sq3 d = 1 - 2 * ec d * ek d.
Proof.
  rewrite <- len3_eq. unfold eb, ec, ek, half_sinc. destruct (Req_EM_T (len3 d) 0) as [->|Hn].
  - replace (0 / 2) with 0 by field. rewrite cos_0. lra.
  - rewrite (sin_half (len3 d)). field. auto.
Qed.
Lemma quat_exp_form d : quat_exp d = [ec d; ek d * d.[0]; ek d * d.[1]; ek d * d.[2]].
Proof. reflexivity. Qed.
Lemma zero3 d : len3 d = 0 -> d.[0] = 0 /\ d.[1] = 0 /\ d.[2] = 0. Proof. apply len3_zero. Qed.
Definition lin3 (d : list R) (s m : R) (v : list R) : list R := vadd v (vadd (vscale s (cross d v)) (vscale m (cross d (cross d v)))).
Definition vee (d v : list R) : list R := lin3 d (2 * ek d * ek d) (eb d) v.
Definition rotv (d : list R) : list R := [d.[3]; d.[4]; d.[5]].
Definition trav (d : list R) : list R := [d.[0]; d.[1]; d.[2]].
Lemma lin3_length d s m v : length v = 3%nat -> length (lin3 d s m v) = 3%nat.
Proof. intros Hv. apply vadd3; auto. Qed.
Lemma lin3_zero d s m v : len3 d = 0 -> length v = 3%nat -> lin3 d s m v = v.
Proof. intros Hz Hv. apply zero3 in Hz. destruct Hz as (H0 & H1 & H2). three v. unfold lin3. vecs. rewrite H0, H1, H2. lists; ring. Qed.
Lemma lin3_lin3 d s m a b v : length v = 3%nat ->
  lin3 d s m (lin3 d a b v) = lin3 d (a + s - sq3 d * (s * b + m * a)) (b + s * a + m - sq3 d * (m * b)) v.
Proof. intros Hv. three v. unfold lin3, sq3. vecs. lists; ring. Qed.
Lemma lin3_neg d s m v : length d = 3%nat -> length v = 3%nat -> lin3 (vneg d) s m v = lin3 d (- s) m v.
Proof. intros Hd Hv. three d. three v. unfold lin3. vecs. lists; ring. Qed.
Lemma lin3_vneg d s m v : length v = 3%nat -> lin3 d s m (vneg v) = vneg (lin3 d s m v).
Proof. intros Hv. three v. unfold lin3. vecs. lists; ring. Qed.
Lemma lin3_add d s m u v : length u = 3%nat -> length v = 3%nat -> lin3 d s m (vadd u v) = vadd (lin3 d s m u) (lin3 d s m v).
Proof. intros Hu Hv. three u. three v. unfold lin3. vecs. lists; ring. Qed.
Lemma lin3_eq d s m s' m' v : length v = 3%nat -> sq3 d * (s - s') = 0 -> sq3 d * (m - m') = 0 -> lin3 d s m v = lin3 d s' m' v.
Proof.
  intros Hv Hs Hm. destruct (Req_EM_T (sq3 d) 0) as [Hz|Hz].
  - rewrite <- len3_eq in Hz. assert (len3 d = 0) by (apply Rmult_integral in Hz; tauto). rewrite !lin3_zero; auto.
  - apply Rmult_integral in Hs, Hm. replace s' with s by (destruct Hs; [contradiction|lra]). replace m' with m by (destruct Hm; [contradiction|lra]). auto.
Qed.
Lemma lin3_id d v : length v = 3%nat -> lin3 d 0 0 v = v.
Proof. intros Hv. three v. unfold lin3. vecs. lists; ring. Qed.
Lemma se3_exp_form d : se3_exp d = quat_exp (rotv d) ++ vee (rotv d) (trav d).
Proof.
  unfold se3_exp. fold (rotv d). fold (trav d). cbv zeta. f_equal. unfold vee. generalize (rotv d). intros w. unfold trav.
  destruct (Req_EM_T (len3 w) 0) as [Hz|Hz].
  - rewrite lin3_zero; auto.
  - unfold lin3. f_equal. f_equal; f_equal.
    + unfold ek, half_sinc. destruct (Req_EM_T (len3 w) 0); [contradiction|]. rewrite cos_half. field. auto.
    + unfold eb. destruct (Req_EM_T (len3 w) 0); [contradiction|]. auto.
Qed.

(* ---- rotating by an exponential ---- *)
Lemma rodrigues d v : length v = 3%nat -> rotate (quat_exp d) v = lin3 d (2 * ec d * ek d) (2 * ek d * ek d) v.
Proof.
  intros Hv. three v. rewrite quat_exp_form. pose proof (exp_unit d) as H. unfold sq3 in H. unfold rotate, lin3. vecs. revert H.
  generalize (ec d) (ek d) (d.[0]) (d.[1]) (d.[2]). intros c k x y z H.
  lists; [apply (lincomb (r * (c * c + k * k * (x * x + y * y + z * z) - 1))) | apply (lincomb (r0 * (c * c + k * k * (x * x + y * y + z * z) - 1))) | apply (lincomb (r1 * (c * c + k * k * (x * x + y * y + z * z) - 1)))];
    try ring; rewrite H; ring.
Qed.
Lemma neg_len d : length d = 3%nat -> len3 (vneg d) = len3 d.
Proof. intros H. three d. unfold len3. vecs. f_equal. ring. Qed.
Lemma quat_exp_neg d : length d = 3%nat -> quat_exp (vneg d) = quat_conj (quat_exp d).
Proof. intros H. unfold quat_exp, quat_conj. rewrite neg_len by auto. three d. vecs. lists; ring. Qed.
Lemma numbers_neg d : length d = 3%nat -> ec (vneg d) = ec d /\ ek (vneg d) = ek d /\ eb (vneg d) = eb d /\ sq3 (vneg d) = sq3 d.
Proof. intros H. rewrite <- !len3_eq. unfold ec, ek, eb. rewrite neg_len by auto. auto. Qed.
Lemma vee_neg d v : length d = 3%nat -> length v = 3%nat -> vee (vneg d) (vneg v) = vneg (rotate (quat_conj (quat_exp d)) (vee d v)).
Proof.
  intros Hd Hv. rewrite <- quat_exp_neg by auto. rewrite rodrigues by (apply lin3_length; auto).
  destruct (numbers_neg d Hd) as (Ec & Ek & Eb & _). unfold vee. rewrite Ec, Ek, Eb, !lin3_neg by (auto; try (rewrite vneg_length; auto); apply lin3_length; auto). rewrite lin3_vneg, lin3_lin3 by auto. f_equal.
  pose proof (exp_unit d) as H. pose proof (exp_third d) as Hb. revert H Hb. generalize (ec d) (ek d) (eb d) (sq3 d). intros c k b T H Hb. f_equal.
  - apply (lincomb (2 * c * k * (b * T - (1 - 2 * c * k)) * - 1 + 4 * k * k * (c * c + k * k * T - 1))); [rewrite Hb, H; ring | ring].
  - apply (lincomb (2 * k * k * (b * T - (1 - 2 * c * k)))); [rewrite Hb; ring | ring].
Qed.

(* ---- the adjoint ---- *)
Lemma matrix_rotate q d : length d = 3%nat -> mvec (quat_matrix q) d = rotate q d.
Proof.
  intros Hd. three d. unfold quat_matrix. cbn [map]. rewrite !apply_rotate. unfold mvec, vdot, vmul, vsum, rotate. cbn [map nth zipw fold_right nadd nmul n0 NumR]. lists; ring.
Qed.
Lemma rotate_sq q d : norm4 q = 1 -> sq3 (rotate q d) = sq3 d.
Proof.
  intros Hq. apply (scaled (norm4 q * norm4 q)); [rewrite Hq; ring|]. unfold sq3, rotate, norm4. cbn [nth]. ring.
Qed.
Lemma len3_sq d e : sq3 d = sq3 e -> len3 d = len3 e.
Proof. intros H. unfold len3. f_equal. exact H. Qed.
Lemma numbers_rotate q d : norm4 q = 1 -> ec (rotate q d) = ec d /\ ek (rotate q d) = ek d /\ eb (rotate q d) = eb d.
Proof. intros Hq. assert (H : len3 (rotate q d) = len3 d) by (apply len3_sq, rotate_sq; auto). unfold ec, ek, eb. rewrite H. auto. Qed.
Lemma quat_adj q d : norm4 q = 1 -> quat_exp (rotate q d) = quat_mul (quat_mul q (quat_exp d)) (quat_conj q).
Proof.
  intros Hq. rewrite !quat_exp_form. destruct (numbers_rotate q d Hq) as (-> & -> & _). generalize (ec d) (ek d). intros c k. unfold norm4 in Hq.
  unfold rotate, quat_mul, quat_conj. cbn [nth]. lists; try ring.
  symmetry. apply (lincomb (c * (q.[0] * q.[0] + q.[1] * q.[1] + q.[2] * q.[2] + q.[3] * q.[3] - 1))); [rewrite Hq; ring | ring].
Qed.
Lemma cross_rotate q u v : norm4 q = 1 -> cross (rotate q u) (rotate q v) = rotate q (cross u v).
Proof. intros Hq. unfold cross, rotate. cbn [nth]. lists; (apply (scaled (norm4 q)); [auto|unfold norm4; ring]). Qed.
Lemma rotate_scale q k v : length v = 3%nat -> rotate q (vscale k v) = vscale k (rotate q v).
Proof. intros Hv. three v. unfold rotate. vecs. lists; ring. Qed.
Lemma vee_rotate q d v : norm4 q = 1 -> length v = 3%nat -> vee (rotate q d) (rotate q v) = rotate q (vee d v).
Proof.
  intros Hq Hv. unfold vee, lin3. destruct (numbers_rotate q d Hq) as (_ & -> & ->). rewrite !rotate_add by (auto; apply vadd3; reflexivity).
  rewrite !rotate_scale by reflexivity. rewrite !cross_rotate by auto. auto.
Qed.
Lemma cross_anti u v : cross u v = vneg (cross v u).
Proof. vecs. lists; ring. Qed.
Lemma vee_cross u p : length p = 3%nat -> vee u (cross p u) = vadd p (vneg (rotate (quat_exp u) p)).
Proof.
  intros Hp. rewrite rodrigues by auto. rewrite cross_anti. unfold vee. rewrite lin3_vneg by reflexivity. three p. unfold lin3. pose proof (exp_third u) as Hb. unfold sq3 in Hb. vecs. revert Hb.
  generalize (ec u) (ek u) (eb u) (u.[0]) (u.[1]) (u.[2]). intros c k b x y z Hb.
  lists; [apply (lincomb ((b * (x * x + y * y + z * z) - (1 - 2 * c * k)) * (y * r1 - z * r0)))
         |apply (lincomb ((b * (x * x + y * y + z * z) - (1 - 2 * c * k)) * (z * r - x * r1)))
         |apply (lincomb ((b * (x * x + y * y + z * z) - (1 - 2 * c * k)) * (x * r0 - y * r)))]; try ring; rewrite Hb; ring.
Qed.
Lemma se3_adj_form g d : length d = 6%nat ->
  mvec (se3_adj g) d = vadd (rotate (rot_part g) (trav d)) (cross (tra_part g) (rotate (rot_part g) (rotv d))) ++ rotate (rot_part g) (rotv d).
Proof.
  intros Hd. do 6 (destruct d as [|? d]; [discriminate|]). destruct d; [|discriminate].
  unfold se3_adj. cbv zeta. unfold quat_matrix. cbn [map]. rewrite !apply_rotate. unfold rot_part, tra_part, trav, rotv, mcol.
  unfold mvec, vdot, vmul, vsum, rotate. vecs. cbn [map nth zipw fold_right app nadd nmul n0 NumR].
  lists; ring.
Qed.
Lemma vee_add d u v : length u = 3%nat -> length v = 3%nat -> vee d (vadd u v) = vadd (vee d u) (vee d v).
Proof. intros Hu Hv. unfold vee. apply lin3_add; auto. Qed.
Lemma shuffle3 (x p e : list R) : length x = 3%nat -> length p = 3%nat -> length e = 3%nat -> vadd x (vadd p (vneg e)) = vadd (vneg e) (vadd x p).
Proof. intros Hx Hp He. three x. three p. three e. vecs. lists; ring. Qed.
Lemma rotv_app u w : length u = 3%nat -> length w = 3%nat -> rotv (u ++ w) = w.
Proof. intros Hu Hw. three u. three w. reflexivity. Qed.
Lemma trav_app u w : length u = 3%nat -> trav (u ++ w) = u.
Proof. intros Hu. three u. reflexivity. Qed.
Lemma se3_exp_rot d : rot_part (se3_exp d) = quat_exp (rotv d).
Proof. rewrite se3_exp_form. apply rot_of_app. reflexivity. Qed.
Lemma se3_exp_tra d : tra_part (se3_exp d) = vee (rotv d) (trav d).
Proof. rewrite se3_exp_form. apply tra_of_app; [reflexivity|]. apply lin3_length. reflexivity. Qed.
Lemma se3_adj_law g d : norm4 g = 1 -> length d = 6%nat -> se3_exp (mvec (se3_adj g) d) = se3_mul (se3_mul g (se3_exp d)) (se3_inv g).
Proof.
  intros Hg Hd. assert (Hq : norm4 (rot_part g) = 1) by exact Hg.
  rewrite (se3_split (se3_mul g (se3_exp d))), se3_exp_form, se3_adj_form by auto.
  assert (Hu : length (vadd (rotate (rot_part g) (trav d)) (cross (tra_part g) (rotate (rot_part g) (rotv d)))) = 3%nat) by (apply vadd3; reflexivity).
  rewrite rotv_app, trav_app by auto.
  assert (Er : rot_part (se3_mul (se3_mul g (se3_exp d)) (se3_inv g)) = quat_exp (rotate (rot_part g) (rotv d))).
  { rewrite quat_adj by auto. rewrite <- se3_exp_rot. rewrite (se3_mul_rot (se3_mul g (se3_exp d))). rewrite <- (mul_rot (se3_mul g _)). rewrite se3_mul_rot, se3_inv_rot. rewrite <- (mul_rot g). reflexivity. }
  rewrite Er. f_equal. rewrite se3_mul_tra, se3_mul_rot, se3_inv_tra, se3_mul_tra, se3_exp_tra.
  rewrite vee_add by reflexivity. rewrite vee_rotate, vee_cross by auto.
  rewrite quat_adj by auto. rewrite rotate_neg by reflexivity. rewrite !rotate_mul.
  change (rotate g) with (rotate (rot_part g)). change (rotate (se3_exp d)) with (rotate (rot_part (se3_exp d))). rewrite se3_exp_rot. change (quat_conj g) with (quat_conj (rot_part g)).
  apply shuffle3; reflexivity.
Qed.

(* ---- logarithms ---- *)
Definition eh (d : list R) : R := if Req_EM_T (len3 d) 0 then 0 else (1 - len3 d * cos (len3 d / 2) / (2 * sin (len3 d / 2))) / (len3 d * len3 d).
Lemma se3_log_form a : se3_log a = lin3 (quat_log (rot_part a)) (- (1 / 2)) (eh (quat_log (rot_part a))) (tra_part a) ++ quat_log (rot_part a).
Proof.
  unfold se3_log. cbv zeta. f_equal. generalize (quat_log (rot_part a)). intros w. unfold eh. destruct (Req_EM_T (len3 w) 0) as [Hz|Hz].
  - rewrite lin3_zero; auto.
  - reflexivity.
Qed.
Lemma sin_half_pos t : 0 < t < 2 * PI -> 0 < sin (t / 2).
Proof. intros H. apply sin_gt_0; lra. Qed.
Lemma log_numbers d : len3 d < 2 * PI -> 2 * ek d * (eh d * sq3 d) = 2 * ek d - ec d.
Proof.
  intros H. rewrite <- len3_eq. pose proof (len3_pos d) as Hp. unfold eh, ek, ec, half_sinc. destruct (Req_EM_T (len3 d) 0) as [->|Hn].
  - replace (0 / 2) with 0 by field. rewrite cos_0. field.
  - assert (0 < sin (len3 d / 2)) by (apply sin_half_pos; lra). field. repeat split; lra || auto.
Qed.
Lemma vee_inverse d v : len3 d < 2 * PI -> length v = 3%nat -> lin3 d (- (1 / 2)) (eh d) (vee d v) = v /\ vee d (lin3 d (- (1 / 2)) (eh d) v) = v.
Proof.
  intros H Hv. unfold vee. rewrite !lin3_lin3 by auto.
  pose proof (exp_unit d) as Hu. pose proof (exp_third d) as Hb. pose proof (log_numbers d H) as Hh.
  assert (E : forall s m, sq3 d * s = 0 -> sq3 d * m = 0 -> lin3 d s m v = v).
  { intros s m Hs Hm. rewrite <- (lin3_id d v) at 2 by auto. apply lin3_eq; rewrite ?Rminus_0_r; auto. }
  revert Hu Hb Hh E. generalize (ec d) (ek d) (eb d) (eh d) (sq3 d). intros c k b h T Hu Hb Hh E.
  assert (E1 : T * (2 * k * k + - (1 / 2) - T * (- (1 / 2) * b + h * (2 * k * k))) = 0).
  { apply (lincomb (T * (/ 2 * (b * T - (1 - 2 * c * k)) - k * (2 * k * (h * T) - (2 * k - c))))); [rewrite Hb, Hh; ring | field]. }
  assert (E2 : T * (b + - (1 / 2) * (2 * k * k) + h - T * (h * b)) = 0).
  { apply (lincomb ((b * T - (1 - 2 * c * k)) * (1 - h * T) + c * (2 * k * (h * T) - (2 * k - c)) - (c * c + k * k * T - 1))); [rewrite Hb, Hh, Hu; ring | field]. }
  split; apply E; [exact E1 | exact E2 | rewrite <- E1; ring | rewrite <- E2; ring].
Qed.
Lemma len3_scale k d : length d = 3%nat -> len3 (vscale k d) = Rabs k * len3 d.
Proof.
  intros Hd. three d. unfold len3. vecs. rewrite <- (sqrt_Rsqr_abs k), <- sqrt_mult_alt by apply Rle_0_sqr. f_equal. unfold Rsqr. ring.
Qed.
Lemma quat_exp_tail d : tl (quat_exp d) = vscale (ek d) [d.[0]; d.[1]; d.[2]].
Proof. reflexivity. Qed.

Lemma vscale_mul (a b : R) (l : list R) : vscale a (vscale b l) = vscale (a * b) l.
Proof. unfold vscale. rewrite map_map. apply map_ext. intros x. rn. ring. Qed.
Lemma quat_log_exp d : length d = 3%nat -> len3 d < PI -> quat_log (quat_exp d) = d.
Proof.
  intros Hd Ht. unfold quat_log. rewrite quat_exp_tail. pose proof (len3_pos d) as Hp. pose proof PI_RGT_0 as Hpi.
  assert (E : quat_log_factor (nth 0 (quat_exp d) 0) (len3 (vscale (ek d) [d.[0]; d.[1]; d.[2]])) * ek d = 1).
  { rewrite len3_scale by reflexivity. replace (len3 [d.[0]; d.[1]; d.[2]]) with (len3 d) by reflexivity. change (nth 0 (quat_exp d) 0) with (cos (len3 d / 2)).
    unfold quat_log_factor, ek, half_sinc. destruct (Req_EM_T (len3 d) 0) as [Hz|Hz].
    - rewrite Hz, Rmult_0_r. replace (0 / 2) with 0 by field. rewrite cos_0. destruct (Req_EM_T 0 0); [field|contradiction].
    - assert (Hs : 0 < sin (len3 d / 2)) by (apply sin_half_pos; lra). assert (Hc : 0 < cos (len3 d / 2)) by (apply cos_gt_0; lra).
      rewrite Rabs_right by (apply Rle_ge, Rlt_le, Rdiv_lt_0_compat; lra). replace (sin (len3 d / 2) / len3 d * len3 d) with (sin (len3 d / 2)) by (field; auto).
      destruct (Req_EM_T (sin (len3 d / 2)) 0); [lra|]. destruct (Req_EM_T (cos (len3 d / 2)) 0); [lra|].
      change (sin (len3 d / 2) / cos (len3 d / 2)) with (tan (len3 d / 2)). rewrite atan_tan by lra. field. split; auto. }
  change ([nth 1 (quat_exp d) 0; nth 2 (quat_exp d) 0; nth 3 (quat_exp d) 0]) with (vscale (ek d) [d.[0]; d.[1]; d.[2]]).
  rewrite vscale_mul, E, scale1. three d. reflexivity.
Qed.
(* the two quaternions of one rotation *)
Definition up_to_sign (p q : list R) : Prop := p = q \/ p = map Ropp q.
Lemma quat_exp_log q : length q = 4%nat -> norm4 q = 1 -> up_to_sign (quat_exp (quat_log q)) q.
Proof.
  intros Hl Hn. destruct q as [|w [|x [|y [|z [|]]]]]; try discriminate. unfold quat_log. cbn [nth tl]. set (n := len3 [x; y; z]).
  assert (Hw : w * w + n * n = 1) by (unfold n; rewrite len3_eq; unfold sq3, norm4 in *; cbn [nth] in *; lra).
  assert (Hn0 : 0 <= n) by apply len3_pos. pose proof PI_RGT_0 as Hpi.
  unfold quat_exp. rewrite len3_scale by reflexivity. fold n.
  destruct (Req_EM_T n 0) as [Hz|Hz].
  { unfold n in Hz. apply zero3 in Hz. cbn [nth] in Hz. destruct Hz as (-> & -> & ->). fold n.
    assert (En : n = 0) by (unfold n, len3; cbn [nth]; rewrite !Rmult_0_l, !Rplus_0_l; apply sqrt_0). rewrite En, Rmult_0_r. replace (0 / 2) with 0 by field. rewrite cos_0.
    vecs. rewrite En in Hw. assert (Hs : (w - 1) * (w + 1) = 0) by lra. apply Rmult_integral in Hs. destruct Hs as [Hs|Hs]; [left|right; cbn [map]]; lists; try ring; lra. }
  destruct (Req_EM_T w 0) as [Hw0|Hw0].
  { left. assert (En : n = 1) by nra. unfold quat_log_factor. rewrite En, Hw0. destruct (Req_EM_T 1 0); [lra|]. destruct (Req_EM_T 0 0); [|contradiction].
    rewrite Rabs_right by lra. replace (PI / 1 * 1) with PI by field. unfold half_sinc. destruct (Req_EM_T PI 0); [lra|]. rewrite cos_PI2, sin_PI2. vecs. lists; field; auto. }
  assert (E : quat_log_factor w n = 2 * atan (n / w) / n) by (unfold quat_log_factor; destruct (Req_EM_T n 0); [contradiction|]; destruct (Req_EM_T w 0); [contradiction|]; auto).
  pose proof (log_factor w n Hz) as Hf. rewrite E in *. set (al := atan (n / w)) in *.
  assert (Ha : al <> 0) by (intros Hal; apply Hf; rewrite Hal; field; auto).
  assert (Et : Rabs (2 * al / n) * n = Rabs (2 * al)).
  { unfold Rdiv. rewrite Rabs_mult, (Rabs_right (/ n)); [field; auto|]. apply Rle_ge, Rlt_le, Rinv_0_lt_compat. lra. }
  rewrite Et.
  assert (Ec : cos (Rabs (2 * al) / 2) = cos al).
  { unfold Rabs. destruct (Rcase_abs (2 * al)); [replace (- (2 * al) / 2) with (- al) by field; apply cos_neg | f_equal; field]. }
  assert (Ek : half_sinc (Rabs (2 * al)) * (2 * al / n) = sin al / n).
  { unfold half_sinc. destruct (Req_EM_T (Rabs (2 * al)) 0) as [Hq|Hq]; [exfalso; apply (Rabs_no_R0 (2 * al)); [lra|auto]|].
    unfold Rabs. destruct (Rcase_abs (2 * al)); [replace (- (2 * al) / 2) with (- al) by field; rewrite sin_neg; field; lra | replace (2 * al / 2) with al by field; field; lra]. }
  assert (Es : sqrt (1 + Rsqr (n / w)) = / Rabs w).
  { replace (1 + Rsqr (n / w)) with (Rsqr (/ w)) by (unfold Rsqr; apply (lincomb ((1 - (w * w + n * n)) * / (w * w))); [rewrite Hw; ring | field; auto]).
    rewrite sqrt_Rsqr_abs. apply Rabs_inv. }
  assert (Ca : cos al = Rabs w) by (unfold al; rewrite cos_atan, Es; field; apply Rabs_no_R0; auto).
  assert (Sa : sin al / n = Rabs w / w) by (unfold al; rewrite sin_atan, Es; field; repeat split; auto; apply Rabs_no_R0; auto).
  rewrite Ec, Ca. vecs. rewrite <- !Rmult_assoc, Ek, Sa. unfold Rabs. destruct (Rcase_abs w).
  - right. cbn [map]. lists; field; auto.
  - left. lists; field; auto.
Qed.
Lemma quat_log_opp q : q.[0] <> 0 -> length q = 4%nat -> quat_log (map Ropp q) = quat_log q.
Proof.
  intros Hw Hl. destruct q as [|w [|x [|y [|z [|]]]]]; try discriminate. cbn [nth] in Hw. unfold quat_log. cbn [nth tl map].
  replace (len3 [- x; - y; - z]) with (len3 [x; y; z]) by (unfold len3; cbn [nth]; f_equal; ring).
  assert (E : quat_log_factor (- w) (len3 [x; y; z]) = - quat_log_factor w (len3 [x; y; z])).
  { unfold quat_log_factor. destruct (Req_EM_T (len3 [x; y; z]) 0) as [|Hn]; [field; auto|]. destruct (Req_EM_T w 0); [contradiction|]. destruct (Req_EM_T (- w) 0); [lra|].
    replace (len3 [x; y; z] / - w) with (- (len3 [x; y; z] / w)) by (field; auto). rewrite atan_opp. field. auto. }
  rewrite E. vecs. lists; ring.
Qed.
