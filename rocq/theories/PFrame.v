(* Pose graphs in another world frame. *)
From Coq Require Import List Arith Bool Lia Reals Lra.
From Verif Require Import Num NumR Py Arr MLayout MAssign MNoise MSparse MFactor MGraph MLinear MSolver MLie MPose SpecLayout SpecTree SpecAssign SpecGraph SpecLie SpecOrder SpecInv SpecPose SpecSym SpecFrame.
From Verif Require Import PBase PLayout PTree PVec PLie PPose.
Import ListNotations.
Local Open Scope R_scope.

Ltac lists := repeat match goal with |- _ :: _ = _ :: _ => apply (f_equal2 (@cons R)) end; try reflexivity.
Ltac gen l := repeat match goal with |- context [nth ?k l 0] => generalize (nth k l 0); intro end.

Lemma quat_assoc a b c : quat_mul (quat_mul a b) c = quat_mul a (quat_mul b c).
Proof. unfold quat_mul. cbn [nth]. lists; ring. Qed.
Lemma conj_mul a b : quat_conj (quat_mul a b) = quat_mul (quat_conj b) (quat_conj a).
Proof. unfold quat_conj, quat_mul. cbn [nth]. lists; ring. Qed.
Lemma conj_conj a b : quat_mul (quat_conj a) (quat_mul a b) = vscale (norm4 a) (rot_part b).
Proof. unfold quat_conj, quat_mul, norm4, rot_part, vscale. cbn [nth map nmul NumR]. lists; ring. Qed.

(* rotating a 3-vector, in closed form *)
Definition rotate (a v : list R) : list R :=
  [(a.[0] * a.[0] + a.[1] * a.[1] - a.[2] * a.[2] - a.[3] * a.[3]) * v.[0] + 2 * (a.[1] * a.[2] - a.[0] * a.[3]) * v.[1] + 2 * (a.[1] * a.[3] + a.[0] * a.[2]) * v.[2];
   2 * (a.[1] * a.[2] + a.[0] * a.[3]) * v.[0] + (a.[0] * a.[0] - a.[1] * a.[1] + a.[2] * a.[2] - a.[3] * a.[3]) * v.[1] + 2 * (a.[2] * a.[3] - a.[0] * a.[1]) * v.[2];
   2 * (a.[1] * a.[3] - a.[0] * a.[2]) * v.[0] + 2 * (a.[2] * a.[3] + a.[0] * a.[1]) * v.[1] + (a.[0] * a.[0] - a.[1] * a.[1] - a.[2] * a.[2] + a.[3] * a.[3]) * v.[2]].
Lemma apply_rotate a v : quat_apply a v = rotate a v.
Proof. unfold quat_apply, quat_conj, quat_mul, rotate. cbn [nth tl]. lists; ring. Qed.
Lemma rotate_mul a b v : rotate (quat_mul a b) v = rotate a (rotate b v).
Proof. unfold rotate, quat_mul. cbn [nth]. lists; ring. Qed.
Lemma rotate_add a u v : length u = 3%nat -> length v = 3%nat -> rotate a (vadd u v) = vadd (rotate a u) (rotate a v).
Proof.
  intros Hu Hv. destruct u as [|u0 [|u1 [|u2 [|? ?]]]]; try discriminate. destruct v as [|v0 [|v1 [|v2 [|? ?]]]]; try discriminate.
  unfold rotate, vadd. cbn [nth zipw nadd NumR]. lists; ring.
Qed.
Lemma rotate_conj a v : length v = 3%nat -> rotate (quat_conj a) (rotate a v) = vscale (norm4 a * norm4 a) v.
Proof.
  intros Hv. destruct v as [|v0 [|v1 [|v2 [|? ?]]]]; try discriminate. unfold rotate, quat_conj, norm4, vscale. cbn [nth map nmul NumR]. lists; ring.
Qed.
Lemma add_assoc3 (u v w : list R) : length u = 3%nat -> length v = 3%nat -> length w = 3%nat -> vadd (vadd u v) w = vadd u (vadd v w).
Proof.
  intros Hu Hv Hw. destruct u as [|u0 [|u1 [|u2 [|? ?]]]]; try discriminate. destruct v as [|v0 [|v1 [|v2 [|? ?]]]]; try discriminate.
  destruct w as [|w0 [|w1 [|w2 [|? ?]]]]; try discriminate. unfold vadd. cbn [zipw nadd NumR]. lists; ring.
Qed.
Lemma sub3 (u v w : list R) : length u = 3%nat -> length v = 3%nat -> length w = 3%nat -> vadd (vadd u w) (vneg (vadd v w)) = vadd u (vneg v).
Proof.
  intros Hu Hv Hw. destruct u as [|u0 [|u1 [|u2 [|? ?]]]]; try discriminate. destruct v as [|v0 [|v1 [|v2 [|? ?]]]]; try discriminate.
  destruct w as [|w0 [|w1 [|w2 [|? ?]]]]; try discriminate. unfold vadd, vneg. cbn [zipw map nadd nneg NumR]. lists; ring.
Qed.
Lemma scale1 (v : list R) : vscale 1 v = v.
Proof. unfold vscale. rewrite <- (map_id v) at 2. apply map_ext. intros x. cbn. ring. Qed.
Lemma rot_of_app q v : length q = 4%nat -> rot_part (q ++ v) = q.
Proof. intros H. do 4 (destruct q as [|? q]; [discriminate|]). destruct q; [|discriminate]. reflexivity. Qed.
Lemma tra_of_app q v : length q = 4%nat -> length v = 3%nat -> tra_part (q ++ v) = v.
Proof.
  intros H Hv. do 4 (destruct q as [|? q]; [discriminate|]). destruct q; [|discriminate].
  do 3 (destruct v as [|? v]; [discriminate|]). destruct v; [|discriminate]. reflexivity.
Qed.
Lemma rot_rot q : length q = 4%nat -> rot_part q = q.
Proof. intros H. do 4 (destruct q as [|? q]; [discriminate|]). destruct q; [|discriminate]. reflexivity. Qed.
Lemma vadd3 (u v : list R) : length u = 3%nat -> length v = 3%nat -> length (vadd u v) = 3%nat.
Proof. intros Hu Hv. unfold vadd. rewrite zipw_length. lia. Qed.
Lemma mul_rot a b : quat_mul (rot_part a) (rot_part b) = quat_mul a b. Proof. reflexivity. Qed.

Lemma se3_mul_rot a b : rot_part (se3_mul a b) = quat_mul a b.
Proof. unfold se3_mul. rewrite rot_of_app by reflexivity. apply mul_rot. Qed.
Lemma se3_mul_tra a b : tra_part (se3_mul a b) = vadd (rotate (rot_part a) (tra_part b)) (tra_part a).
Proof. unfold se3_mul. rewrite tra_of_app by reflexivity. rewrite apply_rotate. auto. Qed.
Lemma se3_inv_rot a : rot_part (se3_inv a) = quat_conj a. Proof. unfold se3_inv. rewrite rot_of_app by reflexivity. auto. Qed.
Lemma se3_inv_tra a : tra_part (se3_inv a) = vneg (rotate (quat_conj a) (tra_part a)).
Proof. unfold se3_inv. rewrite tra_of_app by reflexivity. rewrite apply_rotate. auto. Qed.
Lemma se3_split a b : se3_mul a b = rot_part (se3_mul a b) ++ tra_part (se3_mul a b). Proof. reflexivity. Qed.

Lemma se3_assoc g x y : se3_mul (se3_mul g x) y = se3_mul g (se3_mul x y).
Proof.
  rewrite (se3_split (se3_mul g x) y), (se3_split g (se3_mul x y)). f_equal.
  - rewrite (se3_mul_rot (se3_mul g x)), (se3_mul_rot g (se3_mul x y)).
    change (quat_mul (rot_part (se3_mul g x)) y = quat_mul g (rot_part (se3_mul x y))). rewrite !se3_mul_rot. apply quat_assoc.
  - rewrite !se3_mul_tra, se3_mul_rot. rewrite rotate_add by reflexivity. rewrite <- (mul_rot g x), rotate_mul.
    rewrite add_assoc3 by reflexivity. auto.
Qed.
Lemma rotate_conj_mul g x v : length v = 3%nat -> norm4 g = 1 -> rotate (quat_conj (quat_mul g x)) (rotate (rot_part g) v) = rotate (quat_conj x) v.
Proof.
  intros Hv Hg. rewrite conj_mul, rotate_mul. change (quat_conj g) with (quat_conj (rot_part g)). rewrite rotate_conj by auto.
  change (norm4 (rot_part g)) with (norm4 g). rewrite Hg. replace (1 * 1) with 1 by ring. rewrite scale1. auto.
Qed.
Lemma rotate_neg a u : length u = 3%nat -> rotate a (vneg u) = vneg (rotate a u).
Proof.
  intros Hu. destruct u as [|u0 [|u1 [|u2 [|? ?]]]]; try discriminate. unfold rotate, vneg. cbn [nth map nneg NumR]. lists; ring.
Qed.
Lemma se3_cancel g x y : norm4 g = 1 -> se3_mul (se3_inv (se3_mul g x)) (se3_mul g y) = se3_mul (se3_inv x) y.
Proof.
  intros Hg. rewrite (se3_split (se3_inv (se3_mul g x)) (se3_mul g y)), (se3_split (se3_inv x) y). f_equal.
  - rewrite (se3_mul_rot (se3_inv _)), (se3_mul_rot (se3_inv x)).
    change (quat_mul (rot_part (se3_inv (se3_mul g x))) (rot_part (se3_mul g y)) = quat_mul (rot_part (se3_inv x)) y).
    rewrite !se3_inv_rot. change (quat_conj (se3_mul g x)) with (quat_conj (rot_part (se3_mul g x))). rewrite !se3_mul_rot.
    rewrite conj_mul, quat_assoc, conj_conj, Hg, scale1. reflexivity.
  - rewrite !se3_mul_tra, !se3_inv_tra, !se3_inv_rot. change (quat_conj (se3_mul g x)) with (quat_conj (rot_part (se3_mul g x))).
    rewrite se3_mul_rot, se3_mul_tra. rewrite !rotate_add by reflexivity. rewrite sub3 by reflexivity.
    rewrite !rotate_conj_mul by auto. auto.
Qed.

Lemma raw_assoc raw (g x y : list R) : planar raw \/ spatial raw -> lg_mul raw (lg_mul raw g x) y = lg_mul raw g (lg_mul raw x y).
Proof.
  intros [[]|[]]; cbn [lg_mul raw_so2 raw_se2 raw_so3 raw_se3].
  - unfold so2_mul. cbn [nth]. lists; ring.
  - unfold se2_mul. cbn [nth]. lists; ring.
  - apply quat_assoc.
  - apply se3_assoc.
Qed.
Lemma scaled (k x y : R) : k = 1 -> x = k * y -> x = y.
Proof. intros -> ->. ring. Qed.
Lemma raw_cancel raw (g x y : list R) : planar raw \/ spatial raw -> (planar raw -> norm2 g = 1) -> (spatial raw -> norm4 g = 1) ->
  lg_mul raw (lg_inv raw (lg_mul raw g x)) (lg_mul raw g y) = lg_mul raw (lg_inv raw x) y.
Proof.
  intros [[]|[]] H2 H4; cbn [lg_mul lg_inv raw_so2 raw_se2 raw_so3 raw_se3].
  - specialize (H2 planar_so2). unfold norm2 in H2. unfold so2_mul, so2_inv. cbn [nth]. lists; (eapply scaled; [exact H2|ring]).
  - specialize (H2 planar_se2). unfold norm2 in H2. unfold se2_mul, se2_inv. cbn [nth]. lists; (eapply scaled; [exact H2|ring]).
  - specialize (H4 spatial_so3). rewrite conj_mul, quat_assoc, conj_conj, H4, scale1. reflexivity.
  - apply se3_cancel, H4. constructor.
Qed.
Lemma raw_mul_length raw (a b : list R) : planar raw \/ spatial raw -> length (lg_mul raw a b) = length (lg_one raw).
Proof. intros [[]|[]]; reflexivity. Qed.

Section Graph.
Variable groups : vty -> lie_ops R (list R).
Variable frame : vty -> list R.
Hypothesis Hu : unit_frame groups frame.
Variable fs : list (factor R).
Hypothesis Hfs : forall f, In f fs -> pose_factor groups f.
Hypothesis Hk : forall v, In v (mentioned fs) -> planar (groups (v_ty v)) \/ spatial (groups (v_ty v)).

Lemma move_value t x : planar (groups t) \/ spatial (groups t) -> pose_value groups t (move groups frame t x).
Proof. intros H. eexists. split; [reflexivity|]. apply raw_mul_length; auto. Qed.
Lemma cancel t x y : planar (groups t) \/ spatial (groups t) ->
  lg_mul (groups t) (lg_inv (groups t) (params (move groups frame t x))) (params (move groups frame t y)) =
  lg_mul (groups t) (lg_inv (groups t) (params x)) (params y).
Proof. intros H. unfold move. rewrite !params_value. apply raw_cancel; auto; apply Hu. Qed.

Lemma value_shape t (x y : pytree R) : pose_value groups t x -> pose_value groups t y -> same_shape x y.
Proof. intros (p & -> & Hp) (q & -> & Hq). unfold same_shape, group_value. cbn. rewrite Hp, Hq. auto. Qed.
Lemma value_tree t (x : pytree R) : pose_value groups t x -> tree_ok x.
Proof. intros H. apply pose_value_ok in H. apply H. Qed.

Lemma frame_symmetry : symmetry (pose_env groups) fs (move_factor groups frame) (moved groups frame).
Proof.
  split.
  - intros f Hf. destruct (Hfs f Hf) as [v mu n Hm Hn Hd|va vb Tab n h Hb Hm Hn Hd]; [reflexivity|]. apply between_inv in Hb. destruct Hb as (_ & ->). reflexivity.
  - intros f Hf. destruct (Hfs f Hf) as [v mu n Hm Hn Hd|va vb Tab n h Hb Hm Hn Hd]; [reflexivity|]. apply between_inv in Hb. destruct Hb as (_ & ->). reflexivity.
  - intros f Hf. destruct (Hfs f Hf) as [v mu n Hm Hn Hd|va vb Tab n h Hb Hm Hn Hd].
    + assert (Hv : planar (groups (v_ty v)) \/ spatial (groups (v_ty v))) by (apply Hk, (in_mentioned fs _ v Hf); cbn; auto).
      cbn. split; auto. split; (constructor; [|constructor]).
      * apply (value_shape (v_ty v)); auto. apply move_value; auto.
      * apply (value_tree (v_ty v)). apply move_value; auto.
    + apply between_inv in Hb. destruct Hb as (_ & ->). cbn. split; auto. split; (constructor; [|constructor]).
      * split; auto.
      * apply (value_tree (v_ty va)); auto.
  - intros f val val' Hf Hr. unfold residual_at. destruct (Hfs f Hf) as [v mu n Hm Hn Hd|va vb Tab n h Hb Hm Hn Hd].
    + assert (Hin : In v (mentioned fs)) by (apply (in_mentioned fs _ v Hf); cbn; auto). destruct (Hr v Hin) as (_ & _ & Hv). unfold moved in Hv.
      change (rminus (groups (v_ty v)) (params (val' v)) (params (move groups frame (v_ty v) mu)) = rminus (groups (v_ty v)) (params (val v)) (params mu)).
      unfold rminus. rewrite Hv. rewrite cancel by auto. auto.
    + apply between_inv in Hb. destruct Hb as (Ht & ->).
      assert (Ha : In va (mentioned fs)) by (apply (in_mentioned fs _ va Hf); cbn; auto).
      assert (Hb : In vb (mentioned fs)) by (apply (in_mentioned fs _ vb Hf); cbn; auto).
      destruct (Hr va Ha) as (_ & _ & Ea). destruct (Hr vb Hb) as (_ & _ & Eb). unfold moved in Ea, Eb.
      change (between_residual (groups (v_ty va)) (params Tab) (params (val' va)) (params (val' vb)) = between_residual (groups (v_ty va)) (params Tab) (params (val va)) (params (val vb))).
      unfold between_residual. rewrite Ea, Eb, <- Ht. rewrite cancel by auto. auto.
  - intros f val val' Hf Hr. unfold jacobians_at. destruct (Hfs f Hf) as [v mu n Hm Hn Hd|va vb Tab n h Hb Hm Hn Hd].
    + reflexivity.
    + apply between_inv in Hb. destruct Hb as (Ht & ->).
      assert (Ha : In va (mentioned fs)) by (apply (in_mentioned fs _ va Hf); cbn; auto).
      assert (Hb : In vb (mentioned fs)) by (apply (in_mentioned fs _ vb Hf); cbn; auto).
      destruct (Hr va Ha) as (_ & _ & Ea). destruct (Hr vb Hb) as (_ & _ & Eb). unfold moved in Ea, Eb.
      change (between_jacobians (groups (v_ty va)) (params Tab) (params (val' va)) (params (val' vb)) = between_jacobians (groups (v_ty va)) (params Tab) (params (val va)) (params (val vb))).
      unfold between_jacobians. rewrite Ea, Eb, <- Ht. rewrite cancel by auto. auto.
  - intros v x x' d y y' Hin Hx Hx' Hm Hd H1 H2. unfold moved in *. cbn in H1, H2. injection H1 as <-. injection H2 as <-. subst x'.
    unfold move at 2. rewrite params_value. unfold move, lie_retract, rplus. rewrite params_value. rewrite raw_assoc by auto. auto.
Qed.
End Graph.
