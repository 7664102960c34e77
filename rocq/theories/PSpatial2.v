(* Proofs: residuals of pose factors on SO(3) and SE(3), poses compared up to the sign of the
   quaternion. *)
From Coq Require Import List Arith Bool Lia Reals Lra.
From Verif Require Import Num NumR Py Arr MLie SpecNoise SpecLie SpecPose SpecZero SpecSpatial.
From Verif Require Import PVec PLie PPose PFrame PZero PSpatial.
Import ListNotations.
Local Open Scope R_scope.

(* ---- group laws on parameter vectors ---- *)
Section Laws.
Variable raw : lie_ops R (list R).
Hypothesis Hk : known raw.
Notation "a ** b" := (lg_mul raw a b) (at level 40, left associativity).
Notation "a ^-" := (lg_inv raw a) (at level 2, format "a ^-").
Notation one := (lg_one raw).

Lemma sized_mul a b : sized_pose raw (a ** b). Proof. apply raw_mul_length; auto. Qed.
Lemma sized_inv a : sized_pose raw (a^-). Proof. apply inv_length; auto. Qed.
Lemma sized_one : sized_pose raw one. Proof. reflexivity. Qed.
Lemma unit_one : unit_pose raw one.
Proof. split; intros []; unfold norm2, norm4; cbn; ring. Qed.
Lemma inv_l a : unit_pose raw a -> sized_pose raw a -> a^- ** a = one.
Proof. intros Ha La. rewrite <- (mul_one raw a) at 2 by auto. apply cancel_left; auto. apply sized_one. Qed.
Lemma inv_r a : unit_pose raw a -> a ** a^- = one.
Proof. intros Ha. rewrite <- (mul_one raw (a^-)) by (auto; apply sized_inv). apply cancel_right; auto. apply sized_one. Qed.
Lemma inv_of_mul a b : unit_pose raw a -> unit_pose raw b -> (a ** b)^- = b^- ** a^-.
Proof.
  intros Ha Hb. rewrite <- (mul_one raw ((a ** b)^-)) by (auto; apply sized_inv).
  rewrite <- (inv_r a Ha). rewrite <- (cancel_right raw b (a^-)) at 1 by (auto; apply sized_inv).
  rewrite <- (raw_assoc raw a b) by auto. apply cancel_left; auto; [apply unit_mul; auto | apply sized_mul].
Qed.
Lemma inv_of_inv a : unit_pose raw a -> sized_pose raw a -> (a^-)^- = a.
Proof.
  intros Ha La. rewrite <- (mul_one raw ((a^-)^-)) by (auto; apply sized_inv). rewrite <- (inv_l a) by auto. apply cancel_left; auto. apply unit_inv; auto.
Qed.
Lemma same_refl p : same_pose raw p p. Proof. left. auto. Qed.
Lemma same_sym p q : same_pose raw p q -> same_pose raw q p.
Proof.
  intros [->|(Hs & Hr & He)]; [left; auto|right]. split; auto. split; auto. rewrite Hr, map_map.
  rewrite <- (map_id (firstn 4 q)) at 1. apply map_ext. intros r. ring.
Qed.
Lemma same_trans p q s : same_pose raw p q -> same_pose raw q s -> same_pose raw p s.
Proof.
  intros [->|(Hs & Hr & He)] [<-|(Hs' & Hr' & He')]; [left; auto|right; auto|right; auto|]. left.
  rewrite <- (firstn_skipn 4 p), <- (firstn_skipn 4 s), Hr, Hr', He, He', map_map. f_equal. rewrite <- (map_id (firstn 4 s)) at 2. apply map_ext. intros r. ring.
Qed.
End Laws.

Ltac seven x := do 7 (destruct x as [|? x]; [discriminate|]); destruct x; [|discriminate].
Lemma opp_cases raw x y : spatial raw -> sized_pose raw x -> sized_pose raw y -> same_pose raw x y -> x = y \/ (firstn 4 x = map Ropp (firstn 4 y) /\ skipn 4 x = skipn 4 y).
Proof. intros Hs Hx Hy [H|(_ & H)]; auto. Qed.
Lemma rotate_opp q v : rotate (map Ropp q) v = rotate q v.
Proof.
  unfold rotate. assert (H : forall k, nth k (map Ropp q) 0 = - nth k q 0) by (intros k; rewrite <- Ropp_0 at 1; apply map_nth).
  rewrite !H. lists; ring.
Qed.
Lemma nth_opp q k : nth k (map Ropp q) 0 = - nth k q 0.
Proof. rewrite <- Ropp_0 at 1. apply map_nth. Qed.
Lemma quat_mul_opp_l q b : quat_mul (map Ropp q) b = map Ropp (quat_mul q b).
Proof. unfold quat_mul. rewrite !nth_opp. cbn [map]. lists; ring. Qed.
Lemma quat_conj_opp q : quat_conj (map Ropp q) = map Ropp (quat_conj q).
Proof. unfold quat_conj. rewrite !nth_opp. cbn [map]. lists; ring. Qed.
Lemma opp_se3 x y : length x = 7%nat -> length y = 7%nat -> firstn 4 x = map Ropp (firstn 4 y) -> skipn 4 x = skipn 4 y ->
  rot_part x = map Ropp (rot_part y) /\ tra_part x = tra_part y.
Proof. intros Hx Hy H1 H2. seven x. seven y. cbn in H1, H2. injection H1 as -> -> -> ->. injection H2 as -> -> ->. split; reflexivity. Qed.
Lemma opp_se3_back x y : length x = 7%nat -> length y = 7%nat -> rot_part x = map Ropp (rot_part y) -> tra_part x = tra_part y -> same_pose raw_se3 x y.
Proof. intros Hx Hy H1 H2. right. split; [constructor|]. seven x. seven y. cbn in H1, H2. injection H1 as -> -> -> ->. injection H2 as -> -> ->. split; reflexivity. Qed.
Lemma opp_so3_back x y : length x = 4%nat -> length y = 4%nat -> x = map Ropp y -> same_pose raw_so3 x y.
Proof.
  intros Hx Hy ->. right. split; [constructor|]. rewrite firstn_map, !skipn_all2, !firstn_all2 by (rewrite ?map_length; lia). auto.
Qed.
Lemma opp_so3 x y : length x = 4%nat -> length y = 4%nat -> firstn 4 x = map Ropp (firstn 4 y) -> x = map Ropp y.
Proof. intros Hx Hy. rewrite !firstn_all2 by lia. auto. Qed.

Lemma same_mul_l raw x y b : known raw -> sized_pose raw x -> sized_pose raw y -> same_pose raw x y -> same_pose raw (lg_mul raw x b) (lg_mul raw y b).
Proof.
  intros Hk Hx Hy [->|(Hs & Hr & Ht)]; [left; auto|]. revert Hx Hy. unfold sized_pose. destruct Hs; intros Hx Hy; cbn [lg_mul lg_one raw_so3 raw_se3 length] in *.
  - apply opp_so3_back; try reflexivity. rewrite (opp_so3 x y) by auto. apply quat_mul_opp_l.
  - destruct (opp_se3 x y Hx Hy Hr Ht) as (E1 & E2). apply opp_se3_back; try reflexivity.
    + rewrite !se3_mul_rot, <- (mul_rot x b), <- (mul_rot y b), E1. apply quat_mul_opp_l.
    + rewrite !se3_mul_tra, E1, E2, rotate_opp. auto.
Qed.
Lemma same_inv raw x y : known raw -> sized_pose raw x -> sized_pose raw y -> same_pose raw x y -> same_pose raw (lg_inv raw x) (lg_inv raw y).
Proof.
  intros Hk Hx Hy [->|(Hs & Hr & Ht)]; [left; auto|]. revert Hx Hy. unfold sized_pose. destruct Hs; intros Hx Hy; cbn [lg_inv lg_one raw_so3 raw_se3 length] in *.
  - apply opp_so3_back; try reflexivity. rewrite (opp_so3 x y) by auto. apply quat_conj_opp.
  - destruct (opp_se3 x y Hx Hy Hr Ht) as (E1 & E2). apply opp_se3_back; try reflexivity.
    + rewrite !se3_inv_rot. change (quat_conj (rot_part x) = map Ropp (quat_conj (rot_part y))). rewrite E1. apply quat_conj_opp.
    + rewrite !se3_inv_tra. change (quat_conj x) with (quat_conj (rot_part x)). change (quat_conj y) with (quat_conj (rot_part y)). rewrite E1, E2, quat_conj_opp, rotate_opp. auto.
Qed.
Lemma matrix_opp q : quat_matrix (map Ropp q) = quat_matrix q.
Proof. unfold quat_matrix. apply map_ext. intros i. apply map_ext. intros v. rewrite !apply_rotate, rotate_opp. auto. Qed.
Lemma same_adj raw x y : spatial raw -> sized_pose raw x -> sized_pose raw y -> same_pose raw x y -> lg_adj raw x = lg_adj raw y.
Proof.
  intros Hs Hx Hy H. destruct (opp_cases raw x y Hs Hx Hy H) as [->|(Hr & Ht)]; auto. revert Hx Hy. unfold sized_pose. clear H. destruct Hs; intros Hx Hy; cbn [lg_adj lg_one raw_so3 raw_se3 length] in *.
  - rewrite (opp_so3 x y) by auto. apply matrix_opp.
  - destruct (opp_se3 x y Hx Hy Hr Ht) as (E1 & E2). unfold se3_adj. rewrite E1, E2, matrix_opp. auto.
Qed.
(* the logarithm does not see the sign of the quaternion, except for half turns *)
Lemma same_log raw x y : spatial raw -> sized_pose raw x -> sized_pose raw y -> y.[0] <> 0 -> same_pose raw x y -> lg_log raw x = lg_log raw y.
Proof.
  intros Hs Hx Hy Hn H. destruct (opp_cases raw x y Hs Hx Hy H) as [->|(Hr & Ht)]; auto. revert Hx Hy. unfold sized_pose. clear H. destruct Hs; intros Hx Hy; cbn [lg_log lg_one raw_so3 raw_se3 length] in *.
  - rewrite (opp_so3 x y) by auto. apply quat_log_opp; auto.
  - destruct (opp_se3 x y Hx Hy Hr Ht) as (E1 & E2). unfold se3_log. rewrite E1, E2, quat_log_opp by auto. auto.
Qed.

(* ---- exponential and logarithm ---- *)
Section Spatial.
Variable raw : lie_ops R (list R).
Hypothesis Hs : spatial raw.
Let Hk : known raw := or_intror Hs.
Notation "a ** b" := (lg_mul raw a b) (at level 40, left associativity).
Notation "a ^-" := (lg_inv raw a) (at level 2, format "a ^-").

Lemma sized_exp d : sized_pose raw (lg_exp raw d).
Proof. destruct Hs; unfold sized_pose; cbn [lg_exp lg_one raw_so3 raw_se3]; [reflexivity|]. rewrite se3_exp_form, app_length. unfold vee. rewrite lin3_length by reflexivity. reflexivity. Qed.
Lemma unit_exp d : unit_pose raw (lg_exp raw d).
Proof.
  split; [intros Hp; exfalso; eapply not_both; eauto|]. intros _. destruct Hs; cbn [lg_exp raw_so3 raw_se3]; [apply quat_exp_norm|].
  unfold se3_exp. rewrite norm4_app by reflexivity. apply quat_exp_norm.
Qed.
Lemma exp_first d : length d = lg_dim raw -> (lg_exp raw d).[0] = cos (rotation_angle raw d / 2).
Proof.
  unfold rotation_angle. destruct Hs; cbn [lg_exp lg_dim raw_so3 raw_se3 Nat.sub]; intros Hd; [reflexivity|].
  do 6 (destruct d as [|? d]; [discriminate|]). destruct d; [|discriminate]. reflexivity.
Qed.
Lemma exp_first_nonzero d : length d = lg_dim raw -> rotation_angle raw d < PI -> (lg_exp raw d).[0] <> 0.
Proof.
  intros Hd Ht. rewrite exp_first by auto. pose proof (len3_pos (skipn (lg_dim raw - 3) d)) as Hp. fold (rotation_angle raw d) in Hp. pose proof PI_RGT_0.
  assert (0 < cos (rotation_angle raw d / 2)) by (apply cos_gt_0; lra). lra.
Qed.
Lemma log_length q : length (lg_log raw q) = lg_dim raw.
Proof. destruct Hs; cbn [lg_log lg_dim raw_so3 raw_se3]; [reflexivity|]. rewrite se3_log_form, app_length, lin3_length by reflexivity. reflexivity. Qed.
Lemma log_exp d : length d = lg_dim raw -> rotation_angle raw d < PI -> lg_log raw (lg_exp raw d) = d.
Proof.
  unfold rotation_angle. destruct Hs; cbn [lg_exp lg_log lg_dim raw_so3 raw_se3 Nat.sub]; intros Hd Ht.
  - apply quat_log_exp; auto.
  - assert (Er : rotv d = skipn 3 d) by (do 6 (destruct d as [|? d]; [discriminate|]); destruct d; [|discriminate]; reflexivity). rewrite <- Er in Ht.
    rewrite se3_log_form, se3_exp_rot, se3_exp_tra. rewrite quat_log_exp by (auto; reflexivity).
    destruct (vee_inverse (rotv d) (trav d)) as (E & _); [pose proof (len3_pos (rotv d)); lra | reflexivity|]. rewrite E.
    do 6 (destruct d as [|? d]; [discriminate|]); destruct d; [|discriminate]; reflexivity.
Qed.
Lemma quat_log_len q : length q = 4%nat -> norm4 q = 1 -> len3 (quat_log q) <= PI.
Proof.
  intros Hl Hn. destruct q as [|w [|x [|y [|z [|]]]]]; try discriminate. unfold quat_log. cbn [nth tl]. set (n := len3 [x; y; z]).
  rewrite len3_scale by reflexivity. fold n. assert (Hn0 : 0 <= n) by apply len3_pos. pose proof PI_RGT_0 as Hpi.
  unfold quat_log_factor. destruct (Req_EM_T n 0) as [->|Hz]; [lra|]. destruct (Req_EM_T w 0) as [->|Hw0].
  - unfold Rdiv. rewrite Rabs_mult, !Rabs_right; [right; field; auto | apply Rle_ge, Rlt_le, Rinv_0_lt_compat; lra | lra].
  - pose proof (atan_bound (n / w)) as Hb. unfold Rdiv at 1. rewrite Rabs_mult, (Rabs_right (/ n)) by (apply Rle_ge, Rlt_le, Rinv_0_lt_compat; lra).
    rewrite Rmult_assoc, Rinv_l, Rmult_1_r by auto. apply Rabs_le. lra.
Qed.
Lemma exp_log q : sized_pose raw q -> unit_pose raw q -> same_pose raw (lg_exp raw (lg_log raw q)) q.
Proof.
  unfold sized_pose. intros Hl (_ & Hu). specialize (Hu Hs). revert Hl. destruct Hs; cbn [lg_exp lg_log lg_one raw_so3 raw_se3]; intros Hl.
  - destruct (quat_exp_log q Hl Hu) as [E|E]; [left; auto|]. apply opp_so3_back; auto.
  - assert (Hr : norm4 (rot_part q) = 1) by exact Hu.
    assert (E2 : tra_part (se3_exp (se3_log q)) = tra_part q).
    { rewrite se3_exp_tra, se3_log_form. rewrite rotv_app, trav_app by (try reflexivity; apply lin3_length; reflexivity).
      apply vee_inverse; [|reflexivity]. pose proof (quat_log_len (rot_part q) eq_refl Hr). pose proof PI_RGT_0. lra. }
    assert (E1 : rot_part (se3_exp (se3_log q)) = quat_exp (quat_log (rot_part q))).
    { rewrite se3_exp_rot, se3_log_form, rotv_app by (try reflexivity; apply lin3_length; reflexivity). auto. }
    assert (Hlen : length (se3_exp (se3_log q)) = 7%nat) by (rewrite se3_exp_form, app_length; unfold vee; rewrite lin3_length by reflexivity; reflexivity).
    destruct (quat_exp_log (rot_part q) eq_refl Hr) as [E|E]; [|apply opp_se3_back; auto; rewrite E1; auto].
    left. revert Hlen E2 E1. rewrite E. generalize (se3_exp (se3_log q)). intros p Hp E2 E1. seven p. seven q. cbn in E1, E2. injection E1 as -> -> -> ->. injection E2 as -> -> ->. auto.
Qed.
Lemma exp_neg d : length d = lg_dim raw -> lg_exp raw (vneg d) = (lg_exp raw d)^-.
Proof.
  destruct Hs; cbn [lg_exp lg_inv lg_dim raw_so3 raw_se3]; intros Hd; [apply quat_exp_neg; auto|].
  do 6 (destruct d as [|? d]; [discriminate|]); destruct d; [|discriminate].
  unfold se3_inv. rewrite se3_exp_rot, se3_exp_tra, apply_rotate. rewrite <- vee_neg, <- quat_exp_neg by reflexivity. rewrite se3_exp_form. reflexivity.
Qed.
Lemma adj_shape g : shaped (lg_dim raw) (lg_dim raw) (lg_adj raw g).
Proof. destruct Hs; (split; [reflexivity|]); repeat constructor. Qed.
Lemma exp_adj g d : sized_pose raw g -> unit_pose raw g -> length d = lg_dim raw -> lg_exp raw (mvec (lg_adj raw g) d) = g ** lg_exp raw d ** g^-.
Proof.
  intros Lg (_ & Hu). specialize (Hu Hs). revert Lg. unfold sized_pose. destruct Hs; cbn [lg_exp lg_inv lg_mul lg_adj lg_dim raw_so3 raw_se3]; intros Lg Hd.
  - rewrite matrix_rotate by auto. apply quat_adj; auto.
  - apply se3_adj_law; auto.
Qed.
End Spatial.
