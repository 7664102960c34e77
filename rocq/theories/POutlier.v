(* Gauss-Newton on one pose with an outlier. *)
From Coq Require Import List Arith Bool Lia Permutation Reals Lra ZArith.
From Verif Require Import Num NumR Py Arr MLayout MAssign MNoise MSparse MFactor MGraph MLinear MSolver MLie MPose SpecLayout SpecTree SpecAssign SpecGraph SpecSparse SpecNoise SpecDeriv SpecInv SpecSolver SpecTwin SpecLie SpecPose SpecBook SpecOutlier.
From Verif Require Import PBase PVec PLayout PNoise PGraph PHold PSolverR PDescent PTotal PPose PExScript PBook PExBook.
Import ListNotations.
Local Open Scope R_scope.

Section One.
Variable groups : vty -> lie_ops R (list R).
Variable v : var.
Hypothesis Hse2 : groups (v_ty v) = raw_se2.
Notation E := (pose_env groups).

Lemma at_residual val x y n a b : val v = at_xy (v_ty v) a b -> residual_at E val (seen_at v x y n) = [x - a; y - b; 0].
Proof.
  intros Hv. unfold residual_at, seen_at, prior_make. cbn -[prior_residual se2_log]. rewrite Hse2, Hv. unfold at_xy. rewrite !params_value.
  unfold prior_residual, rminus. cbn [lg_log lg_mul lg_inv raw_se2].
  replace (se2_mul (se2_inv [1; 0; a; b]) [1; 0; x; y]) with [1; 0; x - a; y - b]; [apply log_shift|].
  unfold se2_mul, se2_inv. cbn [nth]. f_equal; [ring|]. f_equal; [ring|]. f_equal; [ring|]. f_equal. ring.
Qed.

(* noise whose weights at the residual r are q for the residual and s for the Jacobian *)
Definition weighs (n : noise R) (r : list R) (q s : R) : Prop :=
  whiten_residual n r = Ok (vscale q r) /\ forall J, length J = 3%nat -> whiten_jacobian n J (vscale q r) = Ok (map (vscale s) J).
Lemma unit_weighs r : length r = 3%nat -> weighs unit_noise r 1 1.
Proof.
  destruct r as [|x [|y [|z [|]]]]; try discriminate. intros _. unfold unit_noise, diag_from_covariance. split.
  - cbn. rewrite sqrt_1. do 2 f_equal; [field|]. f_equal; [field|]. f_equal. field.
  - intros [|J1 [|J2 [|J3 [|]]]] H; try discriminate. cbn. rewrite sqrt_1. replace (1 / 1) with 1 by field. reflexivity.
Qed.
Lemma huber_weighs delta r : 0 < delta -> length r = 3%nat -> delta <= vnorm r -> weighs (huber_noise delta) r (sqrt (delta / vnorm r)) (sqrt (sqrt (delta / vnorm r))).
Proof.
  intros Hd Hr Hn. set (n := vnorm r) in *. set (q := sqrt (delta / n)). destruct (unit_weighs r Hr) as (H1 & H2).
  assert (Hs1 : vscale 1 r = r) by (clear; unfold vscale; induction r; cbn; f_equal; auto; rn; ring).
  assert (Hq : 0 <= q) by apply sqrt_pos.
  assert (Hdn : 0 < delta / n) by (apply Rmult_lt_0_compat; auto; apply Rinv_0_lt_compat; lra).
  assert (Hqn : q * n = sqrt (delta * n)).
  { unfold q. rewrite <- (sqrt_square n) at 2 by lra. rewrite <- sqrt_mult by (try lra; nra). f_equal. field. lra. }
  assert (Hge : delta <= q * n).
  { rewrite Hqn. rewrite <- (sqrt_square delta) at 1 by lra. apply sqrt_le_1; nra. }
  assert (Hr2 : delta / (q * n) = q).
  { assert (Hqq : q * q = delta / n) by (apply sqrt_sqrt; lra). assert (0 < q) by (apply sqrt_lt_R0; auto).
    apply (Rmult_eq_reg_r (q * n)); [|nra]. unfold Rdiv. rewrite Rmult_assoc, Rinv_l, Rmult_1_r by nra. replace (q * (q * n)) with (q * q * n) by ring. rewrite Hqq. field. lra. }
  split.
  - unfold huber_noise. cbn [whiten_residual]. rewrite H1, Hs1. cbn [bind scalar a_shape a_data]. fold n. cbn [nltb NumR]; rewrite (proj2 (Rltb_no _ _)) by (auto; lra). f_equal. apply map_ext. intros. rn. fold q. ring.
  - intros J HJ. unfold huber_noise. cbn [whiten_jacobian].
    assert (HJ1 : whiten_jacobian unit_noise J (vscale q r) = Ok J).
    { destruct (unit_weighs (vscale q r)) as (_ & G); [unfold vscale; rewrite map_length; auto|].
      assert (vscale 1 (vscale q r) = vscale q r) as <- by (clear; unfold vscale; rewrite map_map; apply map_ext; intros; rn; ring).
      rewrite G by auto. f_equal. rewrite <- (map_id J) at 2. apply map_ext. intros l. unfold vscale. rewrite <- (map_id l) at 2. apply map_ext. intros. rn. ring. }
    rewrite HJ1. cbn [bind scalar a_shape a_data]. rewrite vnorm_scale by auto. fold n. cbn [nltb NumR]; rewrite (proj2 (Rltb_no _ _)) by (auto; lra). f_equal. apply map_ext. intros l. apply map_ext. intros z. rn. rewrite Hr2. ring.
Qed.

Lemma seen_model val x y n a b q s xi e1 e2 e3 : val v = at_xy (v_ty v) a b -> weighs n [x - a; y - b; 0] q s -> noise_dim n = 3%nat -> xi v = [e1; e2; e3] ->
  model_at E val val xi (seen_at v x y n) = (q * (x - a) - s * e1) * (q * (x - a) - s * e1) + (q * (y - b) - s * e2) * (q * (y - b) - s * e2) + s * e3 * (s * e3).
Proof.
  intros Hv (H1 & H2) Hd Hxi. unfold model_at, whitened_at, whitened_jacobians_at. rewrite (at_residual val x y n a b Hv). change (f_noise (seen_at v x y n)) with n. rewrite H1.
  assert (HJ : jacobians_at E val (seen_at v x y n) = [neg_eye 3]).
  { unfold jacobians_at, seen_at, prior_make. cbn -[neg_eye]. rewrite Hse2. reflexivity. }
  rewrite HJ. cbn [traverse]. rewrite H2 by reflexivity. cbn [bind]. unfold residual_dim. change (f_noise (seen_at v x y n)) with n. rewrite Hd. change (f_vars (seen_at v x y n)) with [v].
  unfold pushed. cbn [zipw]. rewrite Hxi. cbn. rewrite !sumsq_cons, !vdot_cons, !vdot_nil_l. change (sumsq (@nil R)) with 0. ring.
Qed.

Variables (x y : R) (n : noise R) (m : nat) (fs : list (factor R)).
Hypothesis Hfs : observations v m (seen_at v x y n) fs.
Hypothesis Hnd : noise_dim n = 3%nat.

Lemma obs_mentioned : forall u, In u (mentioned fs) <-> u = v.
Proof.
  intros u. rewrite mentioned_in. split.
  - intros (f & Hf & Hu). apply (Permutation_in _ Hfs) in Hf. destruct Hf as [<-|Hf]; [destruct Hu as [<-|[]]; auto|]. apply repeat_spec in Hf. subst f. destruct Hu as [<-|[]]. auto.
  - intros ->. exists (seen_at v x y n). split; [apply (Permutation_in _ (Permutation_sym Hfs)); left; auto | left; auto].
Qed.
Lemma obs_only : mentioned fs = [v].
Proof.
  assert (ND : NoDup (mentioned fs)) by (unfold mentioned; apply firsts_nodup). pose proof obs_mentioned as H. destruct (mentioned fs) as [|a [|b l]].
  - exfalso. apply (proj2 (H v)). auto.
  - f_equal. apply H. left. auto.
  - exfalso. inversion ND as [|? ? Hn _]. subst. apply Hn. rewrite (proj1 (H a)) by (left; auto). rewrite (proj1 (H b)) by (right; left; auto). left. auto.
Qed.
Lemma mapr {A B} (f : A -> B) z k : map f (repeat z k) = repeat (f z) k.
Proof. induction k; cbn; congruence. Qed.
Lemma vsum_repeat (z : R) k : vsum (repeat z k) = INR k * z.
Proof. induction k; [cbn [repeat INR]; change (vsum (@nil R)) with 0; ring|]. cbn [repeat]. rewrite vsum_cons, IHk, S_INR. ring. Qed.
Lemma obs_model val a b q s xi e1 e2 e3 : val v = at_xy (v_ty v) a b -> weighs n [x - a; y - b; 0] q s -> xi v = [e1; e2; e3] ->
  model E fs val val xi = (q * (x - a) - s * e1) * (q * (x - a) - s * e1) + (q * (y - b) - s * e2) * (q * (y - b) - s * e2) + s * e3 * (s * e3) +
    INR m * ((a + e1) * (a + e1) + (b + e2) * (b + e2) + e3 * e3).
Proof.
  intros Hv Hw Hxi. unfold model. rewrite (vsum_perm _ _ (Permutation_map _ Hfs)). cbn [map]. rewrite vsum_cons, mapr, vsum_repeat. rn.
  rewrite (seen_model val x y n a b q s xi e1 e2 e3 Hv Hw Hnd Hxi).
  rewrite (seen_model val 0 0 unit_noise a b 1 1 xi e1 e2 e3 Hv (unit_weighs [0 - a; 0 - b; 0] eq_refl) eq_refl Hxi). ring.
Qed.

Lemma three xi : tangent E fs xi -> exists e1 e2 e3, xi v = [e1; e2; e3].
Proof.
  intros Ht. pose proof (Ht v (proj2 (obs_mentioned v) eq_refl)) as Hl. unfold vldim in Hl. cbn in Hl. rewrite Hse2 in Hl. cbn in Hl.
  destruct (xi v) as [|e1 [|e2 [|e3 [|]]]]; try discriminate. eauto.
Qed.
Lemma obs_inner xi : inner fs xi xi = vdot (xi v) (xi v).
Proof. unfold inner. rewrite obs_only. cbn [map]. rewrite vsum_cons. change (vsum (@nil R)) with 0. ring. Qed.

(* one turn *)
Lemma obs_turn val val' a b q s : val v = at_xy (v_ty v) a b -> weighs n [x - a; y - b; 0] q s -> gauss_newton_turn E fs val val' ->
  let K := INR m + s * s + 1 / 100000 in
  val' v = at_xy (v_ty v) (a + (s * q * (x - a) - INR m * a) / K) (b + (s * q * (y - b) - INR m * b) / K).
Proof.
  intros Hv Hw (xi & (Ht & Hmin) & Hm) K. pose proof (pos_INR m) as Pm.
  assert (HK : 0 < K) by (unfold K; pose proof (Rle_0_sqr s) as P; unfold Rsqr in P; lra).
  destruct (three xi Ht) as (e1 & e2 & e3 & Hxi). set (c1 := (s * q * (x - a) - INR m * a) / K). set (c2 := (s * q * (y - b) - INR m * b) / K).
  assert (Hc : tangent E fs (fun _ => [c1; c2; 0])).
  { intros u Hu. apply obs_mentioned in Hu. subst u. unfold vldim. cbn. rewrite Hse2. reflexivity. }
  destruct (Hmin _ Hc) as (H1 & H2). rewrite !obs_inner, Hxi in H1, H2.
  rewrite (obs_model val a b q s xi e1 e2 e3 Hv Hw Hxi), (obs_model val a b q s _ c1 c2 0 Hv Hw eq_refl) in H1, H2. 
  assert (Hd : forall c e z w0, c * K = s * q * z - INR m * w0 ->
    (q * z - s * e) * (q * z - s * e) + INR m * ((w0 + e) * (w0 + e)) + 1 / 100000 * (e * e) - ((q * z - s * c) * (q * z - s * c) + INR m * ((w0 + c) * (w0 + c)) + 1 / 100000 * (c * c)) = K * ((e - c) * (e - c))).
  { intros c e z w0 He. assert (Hz : s * q * z = c * K + INR m * w0) by lra.
    replace ((q * z - s * e) * (q * z - s * e)) with (q * z * (q * z) - 2 * e * (s * q * z) + s * s * (e * e)) by ring.
    replace ((q * z - s * c) * (q * z - s * c)) with (q * z * (q * z) - 2 * c * (s * q * z) + s * s * (c * c)) by ring. rewrite Hz. unfold K. ring. }
  assert (D1 := Hd c1 e1 (x - a) a ltac:(unfold c1; field; lra)). assert (D2 := Hd c2 e2 (y - b) b ltac:(unfold c2; field; lra)).
  assert (D3 : s * e3 * (s * e3) + INR m * (e3 * e3) + 1 / 100000 * (e3 * e3) = K * (e3 * e3)) by (unfold K; ring).
  assert (P1 : 0 <= K * ((e1 - c1) * (e1 - c1))) by (apply Rmult_le_pos; [lra | apply Rle_0_sqr]).
  assert (P2 : 0 <= K * ((e2 - c2) * (e2 - c2))) by (apply Rmult_le_pos; [lra | apply Rle_0_sqr]).
  assert (P3 : 0 <= K * (e3 * e3)) by (apply Rmult_le_pos; [lra | apply Rle_0_sqr]).
  clearbody c1 c2. rn. assert (Hag : agree fs (fun _ => [c1; c2; 0]) xi).
  { apply H2. clear H1 H2. rewrite !vdot_cons, !vdot_nil_l. lra. }
  specialize (Hag v (proj2 (obs_mentioned v) eq_refl)). rewrite <- Hag in Hxi. specialize (Hm v (proj2 (obs_mentioned v) eq_refl)). rewrite <- Hag in Hm.
  cbn in Hm. rewrite Hse2, Hv in Hm. injection Hm as Hm. rewrite <- Hm. unfold at_xy. f_equal. rewrite params_value. unfold lie_retract, rplus. cbn [lg_mul lg_exp raw_se2].
  unfold se2_mul, se2_exp. cbn [nth]. rewrite cos_0, sin_0. unfold v_s, v_c. destruct (Req_EM_T 0 0); [|lra]. f_equal; [ring|]. f_equal; [ring|]. f_equal; [ring|]. f_equal. ring.
Qed.
End One.
