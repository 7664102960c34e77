(* Proofs: a pose graph costs nothing exactly when every measurement holds. *)
From Coq Require Import List Arith Bool Lia Reals Lra ZArith.
From Verif Require Import Num NumR Py Arr MLayout MAssign MNoise MSparse MFactor MGraph MLie MPose SpecNoise SpecLie SpecGraph SpecPose SpecZero.
From Verif Require Import PBase PBase PVec PSolverR PDeriv PNoise PGraph2 PExGraph PLie PExLie PPose PFrame.
Import ListNotations.
Local Open Scope R_scope.

(* ---- noise ---- *)
Lemma vzero_mul n d : vmul (T := R) d (vzero n) = vzero (Nat.min (length d) n).
Proof.
  revert n. induction d as [|x d IH]; intros [|n]; auto. cbn -[Rmult]. f_equal; [rn; ring|]. apply IH.
Qed.
Lemma vmul_zero (d r : list R) : length d = length r -> Forall (fun s => s <> 0) d -> vmul d r = vzero (length r) -> r = vzero (length r).
Proof.
  intros Hl Hd. revert r Hl. induction Hd as [|s d Hs Hd IH]; intros [|x r] Hl H; try discriminate; auto.
  cbn in H. injection H as H1 H2. injection Hl as Hl. cbn. f_equal.
  - revert H1. rn. intros H1. apply Rmult_integral in H1. tauto.
  - apply IH; auto.
Qed.
Lemma whiten_zero (n : noise R) r w : noise_ok n -> informative n -> length r = noise_dim n -> whiten_residual n r = Ok w ->
  length w = noise_dim n /\ (w = vzero (noise_dim n) <-> r = vzero (noise_dim n)).
Proof.
  revert r w. induction n as [W|d|n IH delta]; intros r w Hok Hi Hl Hw.
  - destruct Hok as (Ha & k & Hk). cbn [noise_dim informative whiten_residual] in Hl, Hi, Hw |- *. specialize (Hi r k Hk). rewrite Hk in *. cbn [last] in Hl |- *.
    rewrite Hl, Nat.eqb_refl in Hw. injection Hw as <-. split.
    + unfold mvec. rewrite map_length. apply chunks_length.
    + split; auto. intros ->. rewrite mvec_vzero, chunks_length. auto.
  - destruct Hok as (Ha & k & Hk). cbn [noise_dim informative whiten_residual] in Hl, Hi, Hw |- *. rewrite Hk in *. cbn [last] in Hl |- *.
    assert (Hd : length (a_data d) = k). { unfold arr_ok in Ha. rewrite Hk in Ha. cbn in Ha. rewrite Nat.mul_1_r in Ha. apply Nat.eqb_eq in Ha. auto. }
    unfold shape_eqb in Hw. rewrite Hl in Hw. destruct (assert_ _) in Hw; [|discriminate]. injection Hw as <-. split.
    + unfold vmul. rewrite zipw_length. lia.
    + split.
      * intros H. rewrite <- Hl. apply (vmul_zero (a_data d)); [lia|auto|]. rewrite H, Hl. auto.
      * intros ->. rewrite vzero_mul. f_equal. lia.
  - destruct Hok as (Hok & Ha & Hs). destruct Hi as (Hi & dl & Hd & Hpos). cbn [noise_dim whiten_residual] in Hl, Hw. destruct (whiten_residual n r) as [r'|] eqn:Er; [|discriminate].
    destruct (IH r r' Hok Hi Hl Er) as (Hl' & Hz). cbn [bind] in Hw. unfold scalar in Hw. rewrite Hs, Hd in Hw. cbn [bind] in Hw.
    cbn [noise_dim]. destruct (nltb (vnorm r') dl) eqn:E; [injection Hw as <-; exact (conj Hl' Hz)|].
    assert (Hk : 0 < nsqrt (ndiv dl (vnorm r'))).
    { assert (Hge : dl <= vnorm r') by (apply Rltb_no, E). rn. apply sqrt_lt_R0, Rdiv_lt_0_compat; lra. }
    set (k := nsqrt (ndiv dl (vnorm r'))) in *. clearbody k. injection Hw as <-. split; [rewrite map_length; auto|]. rewrite <- Hz, <- Hl'.
    clear -Hk. induction r' as [|x r' IH]; [tauto|]. cbn. split; intros H; injection H as H1 H2.
    + f_equal; [|apply IH; auto]. revert H1. rn. intros H1. apply Rmult_integral in H1. lra.
    + f_equal; [subst; rn; ring|apply IH; auto].
Qed.

(* ---- poses ---- *)
Definition known (raw : lie_ops R (list R)) := planar raw \/ spatial raw.
Definition sized_pose (raw : lie_ops R (list R)) (p : list R) := length p = length (lg_one raw).

Ltac four p := destruct p as [|? [|? [|? [|? p]]]]; try discriminate.
Lemma cancel_left raw a b : known raw -> unit_pose raw a -> sized_pose raw b -> lg_mul raw (lg_inv raw a) (lg_mul raw a b) = b.
Proof.
  intros [[]|[]] (H2 & H4) Hb; cbn [lg_mul lg_inv raw_so2 raw_se2 raw_so3 raw_se3].
  - specialize (H2 planar_so2). unfold norm2 in H2. destruct b as [|b0 [|b1 [|]]]; try discriminate.
    unfold so2_mul, so2_inv. cbn [nth]. lists; (eapply scaled; [exact H2|ring]).
  - specialize (H2 planar_se2). unfold norm2 in H2. destruct b as [|b0 [|b1 [|b2 [|b3 [|]]]]]; try discriminate.
    unfold se2_mul, se2_inv. cbn [nth]. lists; (eapply scaled; [exact H2|ring]).
  - specialize (H4 spatial_so3). rewrite conj_conj, H4, scale1. apply rot_rot. auto.
  - specialize (H4 spatial_se3). rewrite se3_split. rewrite se3_mul_rot, se3_mul_tra, se3_inv_rot, se3_inv_tra, se3_mul_tra.
    change (quat_mul (se3_inv a) (se3_mul a b)) with (quat_mul (rot_part (se3_inv a)) (rot_part (se3_mul a b))).
    rewrite se3_inv_rot, se3_mul_rot, conj_conj, H4, scale1.
    rewrite rotate_add by reflexivity. change (quat_conj a) with (quat_conj (rot_part a)) at 1. rewrite rotate_conj by reflexivity.
    change (norm4 (rot_part a)) with (norm4 a). rewrite H4. replace (1 * 1) with 1 by ring. rewrite scale1.
    rewrite add_assoc3 by reflexivity.
    replace (vadd (tra_part b) _) with (tra_part b).
    + unfold sized_pose in Hb. do 7 (destruct b as [|? b]; [discriminate|]). destruct b; [|discriminate]. reflexivity.
    + unfold tra_part, vadd, vneg, rotate. cbn [nth zipw map nadd nneg NumR]. lists; ring.
Qed.
Lemma conj_back a b : quat_mul a (quat_mul (quat_conj a) b) = vscale (norm4 a) (rot_part b).
Proof. unfold quat_conj, quat_mul, norm4, rot_part, vscale. cbn [nth map nmul NumR]. lists; ring. Qed.
Lemma rotate_back a v : length v = 3%nat -> rotate a (rotate (quat_conj a) v) = vscale (norm4 a * norm4 a) v.
Proof.
  intros Hv. destruct v as [|v0 [|v1 [|v2 [|? ?]]]]; try discriminate. unfold rotate, quat_conj, norm4, vscale. cbn [nth map nmul NumR]. lists; ring.
Qed.
Lemma cancel_right raw a b : known raw -> unit_pose raw a -> sized_pose raw b -> lg_mul raw a (lg_mul raw (lg_inv raw a) b) = b.
Proof.
  intros [[]|[]] (H2 & H4) Hb; cbn [lg_mul lg_inv raw_so2 raw_se2 raw_so3 raw_se3].
  - specialize (H2 planar_so2). unfold norm2 in H2. destruct b as [|b0 [|b1 [|]]]; try discriminate.
    unfold so2_mul, so2_inv. cbn [nth]. lists; (eapply scaled; [exact H2|ring]).
  - specialize (H2 planar_se2). unfold norm2 in H2. destruct b as [|b0 [|b1 [|b2 [|b3 [|]]]]]; try discriminate.
    unfold se2_mul, se2_inv. cbn [nth]. lists; try (eapply scaled; [exact H2|ring]).
    + transitivity ((a.[0] * a.[0] + a.[1] * a.[1]) * (b2 - a.[2]) + a.[2]); [ring|]. rewrite H2. ring.
    + transitivity ((a.[0] * a.[0] + a.[1] * a.[1]) * (b3 - a.[3]) + a.[3]); [ring|]. rewrite H2. ring.
  - specialize (H4 spatial_so3). rewrite conj_back, H4, scale1. apply rot_rot. auto.
  - specialize (H4 spatial_se3). rewrite se3_split. rewrite se3_mul_rot, !se3_mul_tra, se3_inv_rot, se3_inv_tra.
    change (quat_mul a (se3_mul (se3_inv a) b)) with (quat_mul a (rot_part (se3_mul (se3_inv a) b))).
    rewrite se3_mul_rot. change (quat_mul (se3_inv a) b) with (quat_mul (rot_part (se3_inv a)) b). rewrite se3_inv_rot, conj_back, H4, scale1.
    rewrite rotate_add by reflexivity. rewrite rotate_neg by reflexivity.
    change (quat_conj a) with (quat_conj (rot_part a)). rewrite !rotate_back by reflexivity.
    change (norm4 (rot_part a)) with (norm4 a). rewrite H4. replace (1 * 1) with 1 by ring. rewrite !scale1.
    unfold sized_pose in Hb. do 7 (destruct b as [|? b]; [discriminate|]). destruct b; [|discriminate].
    unfold rot_part, tra_part, vadd, vneg. cbn [nth zipw map nadd nneg NumR app]. lists; ring.
Qed.
Lemma mul_one raw a : known raw -> sized_pose raw a -> lg_mul raw a (lg_one raw) = a.
Proof.
  unfold sized_pose. intros [[]|[]] Ha; cbn [lg_mul lg_one raw_so2 raw_se2 raw_so3 raw_se3 length] in *.
  - destruct a as [|a0 [|a1 [|]]]; try discriminate. unfold so2_mul. cbn [nth]. lists; ring.
  - destruct a as [|a0 [|a1 [|a2 [|a3 [|]]]]]; try discriminate. unfold se2_mul. cbn [nth]. lists; ring.
  - destruct a as [|a0 [|a1 [|a2 [|a3 [|]]]]]; try discriminate. unfold quat_mul. cbn [nth]. lists; ring.
  - do 7 (destruct a as [|? a]; [discriminate|]). destruct a; [|discriminate]. rewrite se3_split, se3_mul_rot, se3_mul_tra.
    unfold quat_mul, rotate, rot_part, tra_part, vadd. cbn [nth zipw map nadd nneg NumR app]. lists; ring.
Qed.
Lemma unit_mul raw a b : known raw -> unit_pose raw a -> unit_pose raw b -> unit_pose raw (lg_mul raw a b).
Proof.
  intros Hk (A2 & A4) (B2 & B4). split; intros H; [specialize (A2 H); specialize (B2 H)|specialize (A4 H); specialize (B4 H)]; clear Hk.
  - assert (Hm : forall a b c s, (a * c - b * s) * (a * c - b * s) + (b * c + a * s) * (b * c + a * s) = (a * a + b * b) * (c * c + s * s)) by (intros; ring).
    destruct H; unfold norm2 in *; cbn [lg_mul raw_so2 raw_se2]; unfold so2_mul, se2_mul; cbn [nth]; rewrite Hm, A2, B2; ring.
  - destruct H; cbn [lg_mul raw_so3 raw_se3].
    + rewrite quat_norm, A4, B4. ring.
    + unfold se3_mul. rewrite norm4_app by reflexivity. rewrite norm4_rot, A4, B4. ring.
Qed.
Lemma unit_inv raw a : known raw -> unit_pose raw a -> unit_pose raw (lg_inv raw a).
Proof.
  intros Hk (A2 & A4). split; intros H; [specialize (A2 H)|specialize (A4 H)]; clear Hk.
  - destruct H; unfold norm2 in *; cbn [lg_inv raw_so2 raw_se2]; unfold so2_inv, se2_inv; cbn [nth]; rewrite <- A2; ring.
  - destruct H; unfold norm4 in *; cbn [lg_inv raw_so3 raw_se3]; unfold se3_inv, quat_conj, rot_part; cbn [nth app]; rewrite <- A4; ring.
Qed.

Lemma quat_opp a b c : b.[0] = - c.[0] -> b.[1] = - c.[1] -> b.[2] = - c.[2] -> b.[3] = - c.[3] -> quat_mul a b = map Ropp (quat_mul a c).
Proof. intros H0 H1 H2 H3. unfold quat_mul. cbn [map]. rewrite H0, H1, H2, H3. lists; ring. Qed.
Lemma same_mul raw a x y : known raw -> sized_pose raw x -> sized_pose raw y -> same_pose raw x y -> same_pose raw (lg_mul raw a x) (lg_mul raw a y).
Proof.
  intros Hk Hx Hy [->|(Hs & Hr & Ht)]; [left; auto|]. right. split; auto. unfold sized_pose in *. revert Hx Hy. destruct Hs; intros Hx Hy; cbn [lg_mul lg_one raw_so3 raw_se3 length] in *.
  - destruct x as [|x0 [|x1 [|x2 [|x3 [|]]]]]; try discriminate. destruct y as [|y0 [|y1 [|y2 [|y3 [|]]]]]; try discriminate.
    cbn in Hr. injection Hr as -> -> -> ->. split; auto. apply (quat_opp a [-y0; -y1; -y2; -y3] [y0; y1; y2; y3]); reflexivity.
  - do 7 (destruct x as [|? x]; [discriminate|]). destruct x; [|discriminate]. do 7 (destruct y as [|? y]; [discriminate|]). destruct y; [|discriminate].
    cbn in Hr, Ht. injection Hr as -> -> -> ->. injection Ht as -> -> ->. split.
    + unfold se3_mul. change (quat_mul (rot_part a) (rot_part [- r6; - r7; - r8; - r9; r10; r11; r12]) = map Ropp (quat_mul (rot_part a) (rot_part [r6; r7; r8; r9; r10; r11; r12]))).
      apply quat_opp; reflexivity.
    + unfold se3_mul. reflexivity.
Qed.

(* ---- the logarithm ---- *)
Lemma len3_zero d : len3 d = 0 <-> d.[0] = 0 /\ d.[1] = 0 /\ d.[2] = 0.
Proof.
  split.
  - intros H. pose proof (len3_sqr d) as Hs. rewrite H in Hs. nra.
  - intros (H0 & H1 & H2). unfold len3. rewrite H0, H1, H2. replace (0 * 0 + 0 * 0 + 0 * 0) with 0 by ring. apply sqrt_0.
Qed.
Lemma log_factor w n : n <> 0 -> quat_log_factor w n <> 0.
Proof.
  intros Hn. unfold quat_log_factor. destruct (Req_EM_T n 0); [contradiction|]. pose proof PI_RGT_0. destruct (Req_EM_T w 0).
  - unfold Rdiv. apply Rmult_integral_contrapositive_currified; [lra | apply Rinv_neq_0_compat; auto].
  - assert (Hq : n / w <> 0) by (unfold Rdiv; apply Rmult_integral_contrapositive_currified; [auto | apply Rinv_neq_0_compat; auto]).
    assert (Ha : atan (n / w) <> 0).
    { destruct (Rtotal_order (n / w) 0) as [Hl|[He|Hg]]; [|contradiction|].
      - apply atan_increasing in Hl. rewrite atan_0 in Hl. lra.
      - apply atan_increasing in Hg. rewrite atan_0 in Hg. lra. }
    unfold Rdiv. apply Rmult_integral_contrapositive_currified; [lra | apply Rinv_neq_0_compat; auto].
Qed.
Lemma quat_log_zero a : length a = 4%nat -> quat_log a = vzero 3 <-> a.[1] = 0 /\ a.[2] = 0 /\ a.[3] = 0.
Proof.
  intros Hl. destruct a as [|a0 [|a1 [|a2 [|a3 [|]]]]]; try discriminate. unfold quat_log. cbn [nth tl]. split.
  - intros H. destruct (Req_EM_T (len3 [a1; a2; a3]) 0) as [Hz|Hz].
    + apply len3_zero in Hz. exact Hz.
    + pose proof (log_factor a0 _ Hz) as Hk. unfold vscale, vzero in H. cbn [map nmul NumR repeat n0] in H. injection H as H1 H2 H3.
      apply Rmult_integral in H1, H2, H3. tauto.
  - intros (-> & -> & ->). unfold vscale, vzero. cbn [map nmul NumR repeat n0]. lists; rn; ring.
Qed.
Lemma rot_opp (q : list R) : length q = 4%nat -> norm4 q = 1 -> (q.[1] = 0 /\ q.[2] = 0 /\ q.[3] = 0 <-> q = [1; 0; 0; 0] \/ q = map Ropp [1; 0; 0; 0]).
Proof.
  intros Hl Hn. destruct q as [|a0 [|a1 [|a2 [|a3 [|]]]]]; try discriminate. unfold norm4 in Hn. cbn [nth map] in *. rewrite Ropp_0. split.
  - intros (-> & -> & ->). assert (Hs : (a0 - 1) * (a0 + 1) = 0) by nra. apply Rmult_integral in Hs. destruct Hs as [Hs|Hs].
    + left. replace a0 with 1 by lra. auto.
    + right. replace a0 with (- (1)) by lra. auto.
  - intros [H|H]; injection H as -> -> -> ->; auto.
Qed.
Lemma vzero_split (x y : list R) n m : length x = n -> x ++ y = vzero (n + m) <-> x = vzero n /\ y = vzero m.
Proof.
  intros Hl. unfold vzero. rewrite repeat_app. split.
  - subst n. generalize (repeat (n0 : R) m). intros z. induction x as [|u x IH]; cbn; [auto|]. intros H. injection H as -> H. destruct (IH H) as (-> & ->). rewrite repeat_length. auto.
  - intros (-> & ->). auto.
Qed.
Lemma not_both raw : planar raw -> spatial raw -> False.
Proof.
  intros Hp Hs. set (j := [0; 0; 1; 0]).
  assert (H0 : nth 0 (lg_mul raw j j) 0 = 0) by (destruct Hp; cbn; ring).
  assert (H1 : nth 0 (lg_mul raw j j) 0 = -1) by (destruct Hs; cbn; ring). lra.
Qed.

Lemma log_zero raw q : known raw -> sized_pose raw q -> unit_pose raw q -> lg_log raw q = vzero (lg_dim raw) <-> same_pose raw q (lg_one raw).
Proof.
  destruct groups as (Hse & Hso & Fse & Fso). unfold sized_pose. intros [Hp|Hs] Hl (H2 & H4).
  - transitivity (q = lg_one raw).
    2: { split; [left; auto|]. intros [->|(Hs & _)]; auto. exfalso. eapply not_both; eauto. }
    revert Hl H2. destruct Hp; intros Hl H2; cbn [lg_one raw_so2 raw_se2 length lg_dim] in Hl |- *.
    + specialize (H2 planar_so2). destruct q as [|c [|s [|]]]; try discriminate. unfold norm2 in H2. cbn [nth] in H2.
      change [c; s] with (rot_params (mkRot c s H2)). rewrite (rp_log _ _ _ so2_represented). rewrite (Fso _).
      split; [intros ->; reflexivity|]. intros H. unfold rot_params in H. cbn in H. injection H as H1 H3.
      apply rot_ext; cbn; auto.
    + specialize (H2 planar_se2). destruct q as [|c [|s [|x [|y [|]]]]]; try discriminate. unfold norm2 in H2. cbn [nth] in H2.
      change [c; s; x; y] with (pose_params (mkPose (mkRot c s H2) x y)). rewrite (rp_log _ _ _ se2_represented). rewrite (Fse _).
      split; [intros ->; reflexivity|]. intros H. unfold pose_params in H. cbn in H. injection H as H1 H3 H5 H6.
      cbn. unfold pose_one. f_equal; auto. apply rot_ext; cbn; auto.
  - pose proof (H4 Hs) as Hn. clear H2 H4. unfold same_pose. revert Hl. destruct Hs; intros Hl; cbn [lg_log lg_one lg_dim raw_so3 raw_se3 length] in *.
    + rewrite quat_log_zero, rot_opp by auto. split; (intros [H|H]; [left; auto|right]).
      * split; [constructor|]. rewrite H. split; reflexivity.
      * destruct H as (_ & H & _). destruct q as [|a0 [|a1 [|a2 [|a3 [|]]]]]; try discriminate. exact H.
    + unfold se3_log. rewrite (vzero_split _ _ 3 3) by (destruct (Req_EM_T _ _); reflexivity).
      rewrite and_comm.
      assert (Hq : length (rot_part q) = 4%nat) by reflexivity.
      transitivity (quat_log (rot_part q) = vzero 3 /\ tra_part q = vzero 3).
      { split; intros (Hw & Ht); (split; [auto|]); destruct (Req_EM_T _ _) as [_|n]; auto; exfalso; apply n; rewrite Hw; apply len3_zero; cbn; auto. }
      rewrite quat_log_zero, rot_opp by auto.
      do 7 (destruct q as [|? q]; [discriminate|]). destruct q; [|discriminate]. unfold rot_part, tra_part, vzero in *. cbn [nth repeat n0 NumR firstn skipn map] in *.
      split.
      * intros ([H|H] & Ht); injection H as -> -> -> ->; injection Ht as -> -> ->; [left; auto|right]. split; [constructor|]. split; reflexivity.
      * intros [H|(_ & H & Ht)]; [injection H as -> -> -> -> -> -> ->|injection H as -> -> -> ->; injection Ht as -> -> ->]; auto.
Qed.

(* ---- residuals ---- *)
Lemma inv_length raw a : known raw -> length (lg_inv raw a) = length (lg_one raw).
Proof. intros [[]|[]]; reflexivity. Qed.
Lemma between_same raw a b t : known raw -> unit_pose raw a -> sized_pose raw b -> sized_pose raw t ->
  same_pose raw (lg_mul raw (lg_inv raw a) b) t <-> same_pose raw (lg_mul raw a t) b.
Proof.
  intros Hk Ha Hb Ht.
  assert (Sy : forall x y, same_pose raw x y -> same_pose raw y x).
  { intros x y [->|(Hs & Hr & He)]; [left; auto|right]. split; auto. split; auto. rewrite Hr, map_map.
    rewrite <- (map_id (firstn 4 y)) at 1. apply map_ext. intros r. ring. }
  split; intros H.
  - apply Sy. rewrite <- (cancel_right raw a b) at 1 by auto. apply same_mul; auto. apply raw_mul_length; auto.
  - apply Sy. rewrite <- (cancel_left raw a t) at 1 by auto. apply same_mul; auto. apply raw_mul_length; auto.
Qed.
Lemma prior_zero raw mu x : known raw -> unit_pose raw mu -> sized_pose raw mu -> unit_pose raw x -> sized_pose raw x ->
  prior_residual raw mu x = vzero (lg_dim raw) <-> same_pose raw x mu.
Proof.
  intros Hk Hm Lm Hx Lx. unfold prior_residual, rminus. rewrite log_zero; auto.
  - rewrite between_same; auto; [|unfold sized_pose; auto]. rewrite mul_one; tauto.
  - apply raw_mul_length; auto.
  - apply unit_mul; auto. apply unit_inv; auto.
Qed.
Lemma between_zero raw t a b : known raw -> unit_pose raw a -> unit_pose raw b -> unit_pose raw t ->
  sized_pose raw a -> sized_pose raw b -> sized_pose raw t ->
  between_residual raw t a b = vzero (lg_dim raw) <-> same_pose raw (lg_mul raw a t) b.
Proof.
  intros Hk Ha Hb Ht La Lb Lt. unfold between_residual. change (rminus raw (lg_mul raw (lg_inv raw a) b) t) with (prior_residual raw t (lg_mul raw (lg_inv raw a) b)).
  rewrite prior_zero; auto.
  - apply between_same; auto.
  - apply unit_mul; auto. apply unit_inv; auto.
  - apply raw_mul_length; auto.
Qed.
