(* Proofs: the length of the logarithm of a rotation is a distance, and its square has the
   gradient the analytic Jacobians give. *)
From Coq Require Import List Arith Bool Lia Reals Lra.
From Verif Require Import Num NumR Py Arr MLie SpecNoise SpecDeriv SpecLie SpecPose SpecZero SpecSpatial.
From Verif Require Import PVec PDeriv PLie PPose PFrame PZero PJacZero PSpatial PSpatial2 PSpatial3 PSolverR PLoss PSettle1.
Import ListNotations.
Local Open Scope R_scope.

Lemma sumsq3 d : length d = 3%nat -> sumsq d = sq3 d.
Proof. intros H. three d. rewrite !sumsq_cons. unfold sq3. cbn [nth]. change (sumsq (T := R) []) with 0. ring. Qed.
Lemma norm_len d : length d = 3%nat -> vnorm d = len3 d.
Proof. intros H. unfold vnorm. rn. rewrite sumsq3 by auto. reflexivity. Qed.

(* ---- the angle of a quaternion ---- *)
Lemma quat_angle q : length q = 4%nat -> norm4 q = 1 -> len3 (quat_log q) = 2 * acos (Rabs q.[0]).
Proof.
  intros Hl Hn. pose proof (quat_log_len q Hl Hn) as Hb. pose proof (len3_pos (quat_log q)) as Hp. pose proof PI_RGT_0 as Hpi.
  assert (Hc : 0 <= cos (len3 (quat_log q) / 2)) by (apply cos_ge_0; lra).
  assert (E : cos (len3 (quat_log q) / 2) = Rabs q.[0]).
  { destruct (quat_exp_log q Hl Hn) as [H|H]; rewrite quat_exp_form in H; apply (f_equal (fun l => l.[0])) in H; cbn [nth] in H; unfold ec in H.
    - rewrite H in Hc |- *. rewrite Rabs_right; lra.
    - rewrite nth_opp in H. rewrite H in Hc |- *. rewrite Rabs_left1; lra. }
  rewrite <- E, acos_cos; lra.
Qed.
Lemma dot3_le a b : (a.[0] * b.[0] + a.[1] * b.[1] + a.[2] * b.[2]) * (a.[0] * b.[0] + a.[1] * b.[1] + a.[2] * b.[2]) <= sq3 a * sq3 b.
Proof.
  unfold sq3. generalize (a.[0]) (a.[1]) (a.[2]) (b.[0]) (b.[1]) (b.[2]). intros x y z u v w.
  pose proof (Rle_0_sqr (x * v - y * u)) as H1. pose proof (Rle_0_sqr (x * w - z * u)) as H2. pose proof (Rle_0_sqr (y * w - z * v)) as H3. unfold Rsqr in *. lra.
Qed.
Lemma acos_sum a b c : 0 <= a <= 1 -> 0 <= b <= 1 -> 0 <= c <= 1 -> a * b - sqrt (1 - Rsqr a) * sqrt (1 - Rsqr b) <= c -> acos c <= acos a + acos b.
Proof.
  intros Ha Hb Hc H. pose proof PI_RGT_0 as Hpi. pose proof (acos_bound a) as Ba. pose proof (acos_bound b) as Bb. pose proof (acos_bound c) as Bc.
  destruct (Rle_or_lt (acos c) (acos a + acos b)) as [|Hlt]; auto. exfalso.
  assert (cos (acos c) < cos (acos a + acos b)) by (apply cos_decreasing_1; lra).
  rewrite cos_plus, !cos_acos, !sin_acos in * by lra. lra.
Qed.
Lemma abs_unit q : norm4 q = 1 -> 0 <= Rabs q.[0] <= 1.
Proof.
  intros H. split; [apply Rabs_pos|]. unfold norm4 in H. assert (Hs : q.[0] * q.[0] <= 1) by (pose proof (Rle_0_sqr q.[1]); pose proof (Rle_0_sqr q.[2]); pose proof (Rle_0_sqr q.[3]); unfold Rsqr in *; lra).
  apply Rsqr_incr_0_var; [|lra]. rewrite <- Rsqr_abs. unfold Rsqr. lra.
Qed.
Lemma quat_triangle a b : length a = 4%nat -> length b = 4%nat -> norm4 a = 1 -> norm4 b = 1 ->
  len3 (quat_log (quat_mul a b)) <= len3 (quat_log a) + len3 (quat_log b).
Proof.
  intros La Lb Na Nb. assert (Nc : norm4 (quat_mul a b) = 1) by (rewrite quat_norm, Na, Nb; ring).
  rewrite !quat_angle by auto. assert (H : acos (Rabs (quat_mul a b).[0]) <= acos (Rabs a.[0]) + acos (Rabs b.[0])); [|lra].
  apply acos_sum; try (apply abs_unit; auto). rewrite <- !Rsqr_abs.
  pose proof (abs_unit a Na) as Ba. pose proof (abs_unit b Nb) as Bb.
  set (va := [a.[1]; a.[2]; a.[3]]). set (vb := [b.[1]; b.[2]; b.[3]]).
  assert (Ea : 1 - Rsqr a.[0] = sq3 va) by (unfold norm4 in Na; unfold Rsqr, sq3, va; cbn [nth]; lra).
  assert (Eb : 1 - Rsqr b.[0] = sq3 vb) by (unfold norm4 in Nb; unfold Rsqr, sq3, vb; cbn [nth]; lra).
  rewrite Ea, Eb. set (p := a.[1] * b.[1] + a.[2] * b.[2] + a.[3] * b.[3]).
  assert (Hp : Rabs p <= sqrt (sq3 va) * sqrt (sq3 vb)).
  { rewrite <- sqrt_mult by (unfold sq3; nra). rewrite <- sqrt_Rsqr_abs. apply sqrt_le_1_alt. unfold Rsqr. pose proof (dot3_le va vb) as H. unfold va, vb in H. cbn [nth] in H. exact H. }
  assert (E : (quat_mul a b).[0] = a.[0] * b.[0] - p) by (unfold quat_mul, p; cbn [nth]; ring). rewrite E.
  pose proof (Rabs_triang_inv (a.[0] * b.[0]) p) as T. rewrite Rabs_mult in T. lra.
Qed.

(* ---- derivative of the squared length ---- *)
Lemma acos_deriv x : -1 < x < 1 -> derivable_pt_lim acos x (-1 / sqrt (1 - Rsqr x)).
Proof. intros H. rewrite <- (derive_pt_acos x H). apply (derive_pt_eq_1 acos x _ (derivable_pt_acos x H)). reflexivity. Qed.

Lemma cos_line_deriv L : derivable_pt_lim (fun t => cos (t * L / 2)) 0 0.
Proof.
  replace 0 with (- sin (0 * L / 2) * (L / 2)) at 2 by (unfold Rdiv; rewrite !Rmult_0_l, sin_0; ring).
  apply (derivable_pt_lim_comp (fun t => t * L / 2) cos); [|apply derivable_pt_lim_cos].
  apply (deriv_ext (fun t => L / 2 * id t)); [intros t; unfold id; field|]. pose proof (derivable_pt_lim_scal id (L / 2) 0 1 (derivable_pt_lim_id 0)) as H. rewrite Rmult_1_r in H. exact H.
Qed.
Definition swung (d e q : list R) (t : R) : list R := quat_mul (quat_conj (quat_exp (vscale t d))) (quat_mul (quat_exp (vscale t e)) q).
Lemma swung_first d e q : length d = 3%nat -> length e = 3%nat -> length q = 4%nat ->
  derivable_pt_lim (fun t => (swung d e q t).[0]) 0 ((d.[0] - e.[0]) * q.[1] / 2 + (d.[1] - e.[1]) * q.[2] / 2 + (d.[2] - e.[2]) * q.[3] / 2) /\ (swung d e q 0).[0] = q.[0].
Proof.
  intros Hd He Hq.
  destruct (len_line_cont d Hd) as (Cd & D0). destruct (len_line_cont e He) as (Ce & E0).
  pose proof (ec_cont (fun t => vscale t d) Cd D0) as C1. pose proof (ek_cont (fun t => vscale t d) Cd D0) as K1.
  pose proof (ec_cont (fun t => vscale t e) Ce E0) as C2. pose proof (ek_cont (fun t => vscale t e) Ce E0) as K2.
  pose proof (ec_0 (fun t => vscale t d) D0) as c1. pose proof (ek_0 (fun t => vscale t d) D0) as k1.
  pose proof (ec_0 (fun t => vscale t e) E0) as c2. pose proof (ek_0 (fun t => vscale t e) E0) as k2.
  cbv beta in c1, k1, c2, k2.
  set (H := fun t => ec (vscale t d) * ek (vscale t e) * - (e.[0] * q.[1] + e.[1] * q.[2] + e.[2] * q.[3]) + ek (vscale t d) * ec (vscale t e) * (d.[0] * q.[1] + d.[1] * q.[2] + d.[2] * q.[3])
     + t * (ek (vscale t d) * ek (vscale t e) * (q.[0] * (d.[0] * e.[0] + d.[1] * e.[1] + d.[2] * e.[2]) + (d.[0] * (e.[1] * q.[3] - e.[2] * q.[2]) + d.[1] * (e.[2] * q.[1] - e.[0] * q.[3]) + d.[2] * (e.[0] * q.[2] - e.[1] * q.[1]))))).
  assert (EW : forall t, (swung d e q t).[0] = cos (t * len3 d / 2) * cos (t * len3 e / 2) * q.[0] + t * H t).
  { intros t. rewrite <- !ec_line by auto. unfold swung, H. rewrite !quat_exp_form, !nth_vscale. unfold quat_mul, quat_conj. cbn [nth]. ring. }
  assert (CH : cont0 H) by (unfold H; ct; auto).
  assert (H0 : H 0 = (d.[0] - e.[0]) * q.[1] / 2 + (d.[1] - e.[1]) * q.[2] / 2 + (d.[2] - e.[2]) * q.[3] / 2).
  { unfold H. rewrite c1, k1, c2, k2. field. }
  split.
  - apply (deriv_ext (fun t => cos (t * len3 d / 2) * cos (t * len3 e / 2) * q.[0] + t * H t)); [intros t; rewrite EW; auto|].
    rewrite <- H0. rewrite <- (Rplus_0_l (H 0)). apply (derivable_pt_lim_plus (fun t => cos (t * len3 d / 2) * cos (t * len3 e / 2) * q.[0]) (fun t => t * H t)); [|apply times_derivable; auto].
    replace 0 with (0 * q.[0]) at 2 by ring. apply (deriv_scal_r (fun t => cos (t * len3 d / 2) * cos (t * len3 e / 2))).
    pose proof (derivable_pt_lim_mult _ _ 0 _ _ (cos_line_deriv (len3 d)) (cos_line_deriv (len3 e))) as M. unfold mult_fct in M. rewrite Rmult_0_l, Rmult_0_r, Rplus_0_l in M. exact M.
  - rewrite EW. unfold Rdiv. rewrite !Rmult_0_l, cos_0. ring.
Qed.
Lemma swung_unit d e q t : norm4 q = 1 -> norm4 (swung d e q t) = 1.
Proof.
  intros Hn. unfold swung. rewrite !quat_norm, quat_exp_norm, Hn.
  assert (E : norm4 (quat_conj (quat_exp (vscale t d))) = norm4 (quat_exp (vscale t d))) by (unfold norm4, quat_conj; cbn [nth]; ring). rewrite E, quat_exp_norm. ring.
Qed.
Lemma factor_angle q : length q = 4%nat -> norm4 q = 1 -> q.[0] <> 0 -> Rabs q.[0] < 1 ->
  quat_log q = vscale ((if Rlt_dec q.[0] 0 then -1 else 1) * (2 * acos (Rabs q.[0])) / sqrt (1 - Rsqr q.[0])) [q.[1]; q.[2]; q.[3]].
Proof.
  intros Hl Hn H0 H1. assert (El : len3 (tl q) = sqrt (1 - Rsqr q.[0])).
  { unfold len3. f_equal. unfold norm4 in Hn. destruct q as [|q0 q]; [discriminate|]. three q. cbn [tl nth] in *. unfold Rsqr. lra. }
  assert (Hs : Rsqr q.[0] < 1) by (rewrite Rsqr_abs; replace 1 with (Rsqr 1) by (unfold Rsqr; ring); apply Rsqr_incrst_1; [auto|apply Rabs_pos|lra]).
  assert (Hp : 0 < sqrt (1 - Rsqr q.[0])) by (apply sqrt_lt_R0; lra). unfold quat_log. f_equal. rewrite El. unfold quat_log_factor.
  destruct (Req_EM_T (sqrt (1 - Rsqr q.[0])) 0); [lra|]. destruct (Req_EM_T q.[0] 0); [contradiction|].
  assert (Ea : forall w, 0 < w < 1 -> atan (sqrt (1 - Rsqr w) / w) = acos w).
  { intros w Hw. rewrite acos_atan by lra. auto. }
  apply Rmult_eq_compat_r. destruct (Rlt_dec q.[0] 0) as [Hlt|Hge].
  - rewrite (Rabs_left _ Hlt) in *. rewrite <- (Ea (- q.[0])) by lra. rewrite <- Rsqr_neg.
    replace (sqrt (1 - Rsqr q.[0]) / - q.[0]) with (- (sqrt (1 - Rsqr q.[0]) / q.[0])) by (field; auto). rewrite atan_opp. ring.
  - assert (Hpos : 0 < q.[0]) by lra. rewrite (Rabs_right q.[0]) in * by lra. rewrite <- (Ea q.[0]) by lra. ring.
Qed.
Lemma swung_deriv d e q : length d = 3%nat -> length e = 3%nat -> length q = 4%nat -> norm4 q = 1 -> q.[0] <> 0 -> Rabs q.[0] < 1 ->
  derivable_pt_lim (fun t => sumsq (quat_log (swung d e q t))) 0 (2 * vdot (quat_log q) (vsub e d)).
Proof.
  intros Hd He Hl Hn H0 H1. destruct (swung_first d e q Hd He Hl) as (DW & W0).
  set (W := fun t => (swung d e q t).[0]) in *. set (dw := _ / 2 + _ / 2 + _ / 2) in DW.
  set (sg := if Rlt_dec q.[0] 0 then -1 else 1).
  assert (Hsg : Rabs q.[0] = sg * q.[0]) by (unfold sg; destruct (Rlt_dec q.[0] 0); [rewrite Rabs_left; lra | rewrite Rabs_right; lra]).
  assert (DS : derivable_pt_lim (fun t => sg * W t) 0 (sg * dw)) by (apply (derivable_pt_lim_scal W); exact DW).
  assert (Wsg : sg * W 0 = Rabs q.[0]) by (rewrite Hsg; unfold W; rewrite W0; auto).
  assert (Hw : 0 < sg * W 0 < 1) by (rewrite Wsg; split; [apply Rabs_pos_lt; auto | auto]).
  assert (Hneg : derivable_pt_lim (fun t => - (sg * W t)) 0 (- (sg * dw))) by (apply (derivable_pt_lim_opp (fun t => sg * W t)); auto).
  destruct (deriv_keeps_below _ _ 0 Hneg) as (e1 & He1 & B1); [cbv beta; lra|].
  assert (DA : derivable_pt_lim (fun t => acos (sg * W t)) 0 (-1 / sqrt (1 - Rsqr (sg * W 0)) * (sg * dw))) by (apply (derivable_pt_lim_comp (fun t => sg * W t) acos); [exact DS | apply acos_deriv; lra]).
  pose proof (derivable_pt_lim_mult _ _ 0 _ _ DA DA) as DM. unfold mult_fct in DM. cbv beta in DM.
  pose proof (derivable_pt_lim_scal _ 4 0 _ DM) as D4. unfold mult_real_fct in D4. cbv beta in D4.
  apply (deriv_local (fun t => 4 * (acos (sg * W t) * acos (sg * W t)))).
  { exists e1. split; auto. intros t Ht. specialize (B1 t Ht). cbv beta in B1. rewrite sumsq3 by reflexivity. rewrite <- len3_eq. rewrite quat_angle by (try reflexivity; apply swung_unit; auto).
    assert (E : Rabs (swung d e q t).[0] = sg * W t).
    { fold (W t). assert (Hs2 : sg = 1 \/ sg = -1) by (unfold sg; destruct (Rlt_dec q.[0] 0); auto). destruct Hs2 as [Hs2|Hs2]; rewrite Hs2 in B1 |- *; [rewrite Rabs_right | rewrite Rabs_left]; lra. }
    rewrite E. ring. }
  replace (2 * vdot (quat_log q) (vsub e d)) with (4 * (-1 / sqrt (1 - Rsqr (sg * W 0)) * (sg * dw) * acos (sg * W 0) + acos (sg * W 0) * (-1 / sqrt (1 - Rsqr (sg * W 0)) * (sg * dw)))); [exact D4|].
  rewrite Wsg, <- Rsqr_abs. rewrite (factor_angle q Hl Hn H0 H1). fold sg.
  assert (Hs : Rsqr q.[0] < 1) by (rewrite Rsqr_abs; replace 1 with (Rsqr 1) by (unfold Rsqr; ring); apply Rsqr_incrst_1; [auto|apply Rabs_pos|lra]).
  assert (Hp : 0 < sqrt (1 - Rsqr q.[0])) by (apply sqrt_lt_R0; lra). unfold dw. three d. three e. unfold vscale, vsub. cbn [map zipw nmul nsub nth NumR]. rewrite !vdot_cons, vdot_nil_l. field. lra.
Qed.
