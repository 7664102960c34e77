(* Proofs: pose factors on Lie groups, and the laws of the planar groups. *)
From Coq Require Import List Arith Reals Lra Lia ZArith Eqdep_dec.
From Verif Require Import Num NumR MLie SpecNoise SpecDeriv SpecLie PVec PSum.
Import ListNotations.
Local Open Scope R_scope.

Section Group.
Context {G : Type} (L : lie_ops R G) (HG : group_laws L).
Notation "a ** b" := (lg_mul L a b) (at level 40, left associativity).
Notation "a ^-" := (lg_inv L a) (at level 2, format "a ^-").
Notation one := (lg_one L).

Lemma cancel_l a b : a^- ** (a ** b) = b.
Proof. rewrite (gl_assoc L HG), (gl_inv_l L HG). apply (gl_one_l L HG). Qed.
Lemma cancel_l' a b : a ** (a^- ** b) = b.
Proof. rewrite (gl_assoc L HG), (gl_inv_r L HG). apply (gl_one_l L HG). Qed.
Lemma inv_unique a b : a ** b = one -> b = a^-.
Proof. intros H. rewrite <- (cancel_l a b), H. apply (gl_one_r L HG). Qed.
Lemma inv_mul a b : (a ** b)^- = b^- ** a^-.
Proof. symmetry. apply inv_unique. rewrite <- (gl_assoc L HG), cancel_l'. apply (gl_inv_r L HG). Qed.
Lemma inv_inv a : a^-^- = a.
Proof. symmetry. apply inv_unique. apply (gl_inv_l L HG). Qed.
Lemma quotient_one a b : a^- ** b = one <-> a = b.
Proof.
  split; [|intros ->; apply (gl_inv_l L HG)]. intros H. rewrite <- (cancel_l' a b), H. symmetry. apply (gl_one_r L HG).
Qed.

Lemma prior_zero_iff mu x : log_faithful L -> prior_residual L mu x = vzero (lg_dim L) <-> x = mu.
Proof. intros H. unfold prior_residual, rminus. rewrite (H _). apply quotient_one. Qed.
Lemma between_zero_iff Tab a b : log_faithful L -> between_residual L Tab a b = vzero (lg_dim L) <-> a ** Tab = b.
Proof.
  intros H. unfold between_residual, rminus. rewrite (H _), quotient_one. split.
  - intros <-. apply cancel_l'.
  - intros <-. apply cancel_l.
Qed.
Lemma between_gauge Tab g a b : between_residual L Tab (g ** a) (g ** b) = between_residual L Tab a b.
Proof.
  assert (E : (g ** a)^- ** (g ** b) = a^- ** b) by (rewrite inv_mul, <- (gl_assoc L HG), cancel_l; auto).
  unfold between_residual, rminus. rewrite E. reflexivity.
Qed.
Lemma between_formula Tab a b : between_residual L Tab a b = lg_log L (b^- ** a ** Tab).
Proof. unfold between_residual, rminus. rewrite (inv_mul a^- b), inv_inv. reflexivity. Qed.
End Group.

Section Lie.
Context {G : Type} (L : lie_ops R G) (near : list R -> Prop) (HL : lie_laws L near).
Let HG := ll_group L near HL.
Notation "a ** b" := (lg_mul L a b) (at level 40, left associativity).
Notation "a ^-" := (lg_inv L a) (at level 2, format "a ^-").
Notation dim := (lg_dim L).

Lemma laws_faithful : log_faithful L.
Proof.
  intros g. split.
  - intros H. rewrite <- (ll_exp_log L near HL g), H. apply (ll_exp_zero L near HL).
  - intros ->. rewrite <- (ll_exp_zero L near HL). apply (ll_log_exp L near HL); [apply repeat_length|].
    destruct (ll_near L near HL) as (e & He & H). apply H; [apply repeat_length|]. intros k. unfold vzero. rewrite nth_repeat. rn. rewrite Rabs_R0. auto.
Qed.

Lemma step_prior mu x : lie_retract L x (prior_residual L mu x) = mu.
Proof. unfold lie_retract, rplus, prior_residual, rminus. rewrite (ll_exp_log L near HL). apply (cancel_l' L HG). Qed.
Lemma step_between Tab a b : lie_retract L b (between_residual L Tab a b) = a ** Tab.
Proof.
  unfold lie_retract, rplus. rewrite (between_formula L HG), (ll_exp_log L near HL).
  rewrite <- (gl_assoc L HG). apply (cancel_l' L HG).
Qed.

Lemma eye_row_dot n : forall k i c (x : list R), length x = n ->
  vdot (map (fun j => if Nat.eqb i j then c else 0) (seq k n)) x = if (Nat.leb k i && Nat.ltb i (k + n))%bool then c * nth (i - k) x 0 else 0.
Proof.
  induction n as [|n IH]; intros k i c x Hx; destruct x as [|y x]; try discriminate.
  - destruct (Nat.leb_spec k i), (Nat.ltb_spec i (k + 0)); try lia; reflexivity.
  - cbn [seq map]. unfold vdot, vmul, vsum in *. cbn [zipw fold_right]. injection Hx as Hx. rewrite (IH (S k) i c x Hx). rn.
    destruct (Nat.eqb_spec i k) as [->|Hne].
    + destruct (Nat.leb_spec (S k) k); [lia|]. cbn [andb]. destruct (Nat.leb_spec k k); [|lia]. destruct (Nat.ltb_spec k (k + S n)); [|lia].
      rewrite Nat.sub_diag. cbn. ring.
    + destruct (Nat.leb_spec (S k) i), (Nat.leb_spec k i); try lia; cbn [andb]; [|ring].
      replace (S k + n)%nat with (k + S n)%nat by lia. destruct (Nat.ltb_spec i (k + S n)); [|ring].
      replace (i - k)%nat with (S (i - S k)) by lia. cbn [nth]. ring.
Qed.
Lemma neg_eye_mvec n (x : list R) : length x = n -> mvec (neg_eye n) x = vneg x.
Proof.
  intros Hx. apply (nth_ext _ _ 0 0); unfold mvec, neg_eye, vneg; rewrite !map_length, ?seq_length; auto.
  intros i Hi. rewrite map_map. rewrite (nth_indep _ 0 (vdot (eye_row n 0 (nneg n1)) x)) by (rewrite map_length, seq_length; auto).
  rewrite (map_nth (fun i => vdot (eye_row n i (nneg n1)) x)), seq_nth by auto. cbn [Nat.add].
  rewrite (nth_indep _ 0 (nneg 0)) by (rewrite map_length; lia). rewrite map_nth. unfold eye_row. rn.
  rewrite eye_row_dot by auto. rewrite Nat.sub_0_r. destruct (Nat.ltb_spec i (0 + n)); [|lia]. cbn. ring.
Qed.

Lemma vneg_length (x : list R) : length (vneg x) = length x.
Proof. apply map_length. Qed.
Lemma inv_exp d : length d = dim -> (lg_exp L d)^- = lg_exp L (vneg d).
Proof. intros. symmetry. apply (ll_exp_neg L near HL). auto. Qed.

(* exact linearity at zero residual *)
Lemma prior_linear mu d : length d = dim -> near (vneg d) ->
  [prior_residual L mu (lie_retract L mu d)] = map (fun J => mvec J d) (prior_jacobians L mu mu).
Proof.
  intros Hd Hn. unfold prior_jacobians. cbn [map]. rewrite neg_eye_mvec by auto. f_equal.
  unfold prior_residual, rminus, lie_retract, rplus. rewrite (inv_mul L HG), <- (gl_assoc L HG), (gl_inv_l L HG), (gl_one_r L HG).
  rewrite inv_exp by auto. apply (ll_log_exp L near HL); auto. rewrite vneg_length. auto.
Qed.
Lemma between_linear_b Tab a d : length d = dim -> near (vneg d) ->
  between_residual L Tab a (lie_retract L (a ** Tab) d) = mvec (nth 1 (between_jacobians L Tab a (a ** Tab)) []) d.
Proof.
  intros Hd Hn. cbn [between_jacobians nth]. rewrite neg_eye_mvec by auto.
  rewrite (between_formula L HG). unfold lie_retract, rplus. rewrite !(inv_mul L HG), <- !(gl_assoc L HG).
  rewrite (cancel_l L HG a Tab), (gl_inv_l L HG), (gl_one_r L HG). rewrite inv_exp by auto. apply (ll_log_exp L near HL); auto. rewrite vneg_length. auto.
Qed.
Lemma between_linear_a Tab a d : length d = dim -> near (mvec (lg_adj L Tab^-) d) ->
  between_residual L Tab (lie_retract L a d) (a ** Tab) = mvec (nth 0 (between_jacobians L Tab a (a ** Tab)) []) d.
Proof.
  intros Hd Hn. cbn [between_jacobians nth]. rewrite (cancel_l L HG a Tab).
  rewrite (between_formula L HG). unfold lie_retract, rplus. rewrite (inv_mul L HG).
  replace (Tab^- ** a^- ** (a ** lg_exp L d) ** Tab) with (Tab^- ** lg_exp L d ** Tab^-^-).
  - rewrite <- (ll_adj L near HL) by auto. apply (ll_log_exp L near HL); auto.
    unfold mvec. rewrite map_length. apply (ll_adj_shape L near HL).
  - rewrite (inv_inv L HG), <- !(gl_assoc L HG). f_equal. rewrite (cancel_l L HG a). reflexivity.
Qed.

(* derivatives *)
Lemma derivable_local (f g : R -> R) l e : 0 < e -> (forall t, Rabs t < e -> f t = g t) -> derivable_pt_lim g 0 l -> derivable_pt_lim f 0 l.
Proof.
  intros He Hfg H eps Heps. destruct (H eps Heps) as [del Hdel].
  assert (Hm : 0 < Rmin e del) by (apply Rmin_pos; [auto | apply cond_pos]).
  exists (mkposreal _ Hm). cbn. intros h Hh Hlt. rewrite !Rplus_0_l.
  rewrite (Hfg h) by (eapply Rlt_le_trans; [exact Hlt | apply Rmin_l]). rewrite (Hfg 0) by (rewrite Rabs_R0; auto).
  specialize (Hdel h Hh). rewrite !Rplus_0_l in Hdel. apply Hdel. eapply Rlt_le_trans; [exact Hlt | apply Rmin_r].
Qed.
Lemma vderiv_local (F : R -> list R) c d e : 0 < e -> (forall t, length (F t) = length d) -> length c = length d ->
  (forall t, Rabs t < e -> F t = vadd c (vscale t d)) -> vderiv F d.
Proof.
  intros He Hl Hc HF. split; auto. intros k.
  apply (derivable_local _ (fun t => nth k c 0 + t * nth k d 0) _ e He).
  - intros t Ht. rewrite HF by auto. destruct (lt_dec k (length d)) as [Hk|Hk].
    + rewrite nth_vadd by (unfold vscale; rewrite ?map_length; auto). unfold vscale.
      rewrite (nth_indep (map (nmul t) d) 0 (nmul t 0)) by (rewrite map_length; auto). rewrite map_nth. rn. auto.
    + rewrite !nth_overflow; try lia; [ring|]. rewrite vadd_length; unfold vscale; rewrite ?map_length; lia.
  - replace (nth k d 0) with (0 + (1 * nth k d 0 + 0 * 0)) at 1 by ring.
    apply derivable_pt_lim_plus; [apply derivable_pt_lim_const|].
    apply (derivable_pt_lim_mult (fun t => t) (fun _ => nth k d 0)); [apply derivable_pt_lim_id | apply derivable_pt_lim_const].
Qed.

Lemma near_line (u : list R) : length u = dim -> exists e, 0 < e /\ forall t, Rabs t < e -> near (vscale t u).
Proof.
  intros Hu. destruct (ll_near L near HL) as (e & He & H).
  assert (Hb : exists B, 0 < B /\ forall k, Rabs (nth k u 0) <= B).
  { clear. induction u as [|x u (B & HB & IH)].
    - exists 1. split; [lra|]. intros [|k]; cbn; rewrite Rabs_R0; lra.
    - exists (B + Rabs x). pose proof (Rabs_pos x). split; [lra|]. intros [|k]; cbn; [lra|]. specialize (IH k). lra. }
  destruct Hb as (B & HB & Hb). exists (e / B). split; [apply Rdiv_lt_0_compat; auto|]. intros t Ht. apply H.
  - unfold vscale. rewrite map_length. auto.
  - intros k. unfold vscale. replace 0 with (nmul t 0) by (rn; ring). rewrite map_nth. rn. rewrite Rabs_mult.
    apply Rle_lt_trans with (Rabs t * B); [apply Rmult_le_compat_l; [apply Rabs_pos | auto]|].
    apply Rlt_le_trans with (e / B * B); [apply Rmult_lt_compat_r; auto|]. right. field. lra.
Qed.

Lemma vneg_vscale t (d : list R) : vneg (vscale t d) = vscale t (vneg d).
Proof. unfold vneg, vscale. rewrite !map_map. apply map_ext. intros x. rn. ring. Qed.
Lemma vadd_zero_l n (d : list R) : length d = n -> vadd (vzero n) d = d.
Proof. intros <-. induction d; cbn; [auto|]. f_equal; [rn; ring | auto]. Qed.

Lemma mvec_vscale' (M : list (list R)) t d : mvec M (vscale t d) = vscale t (mvec M d).
Proof.
  unfold mvec, vscale. rewrite map_map. apply map_ext. intros row. unfold vdot, vmul, vsum.
  revert d. induction row as [|a row IH]; intros [|x d]; cbn; try (rn; ring). rewrite IH. rn. ring.
Qed.

Lemma residual_length (F : R -> G) : forall t, length (lg_log L (F t)) = dim.
Proof. intros. apply (ll_log_dim L near HL). Qed.

Lemma prior_derivative mu d : length d = dim ->
  vderiv (fun t => prior_residual L mu (lie_retract L mu (vscale t d))) (mvec (nth 0 (prior_jacobians L mu mu) []) d).
Proof.
  intros Hd. cbn [prior_jacobians nth]. rewrite neg_eye_mvec by auto.
  destruct (near_line (vneg d)) as (e & He & Hn); [rewrite vneg_length; auto|].
  apply (vderiv_local _ (vzero dim) _ e He); rewrite ?vneg_length.
  - intros t. rewrite Hd. apply (ll_log_dim L near HL).
  - rewrite Hd. apply repeat_length.
  - intros t Ht. assert (Hl : length (vscale t d) = dim) by (unfold vscale; rewrite map_length; auto).
    pose proof (prior_linear mu (vscale t d) Hl) as H. unfold prior_jacobians in H. cbn [map] in H.
    rewrite neg_eye_mvec in H by auto. rewrite vneg_vscale in H. specialize (H (Hn t Ht)). injection H as H.
    rewrite H. rewrite vadd_zero_l; auto. unfold vscale. rewrite map_length, vneg_length. auto.
Qed.
Lemma between_derivative_b Tab a d : length d = dim ->
  vderiv (fun t => between_residual L Tab a (lie_retract L (a ** Tab) (vscale t d))) (mvec (nth 1 (between_jacobians L Tab a (a ** Tab)) []) d).
Proof.
  intros Hd. cbn [between_jacobians nth]. rewrite neg_eye_mvec by auto.
  destruct (near_line (vneg d)) as (e & He & Hn); [rewrite vneg_length; auto|].
  apply (vderiv_local _ (vzero dim) _ e He); rewrite ?vneg_length.
  - intros t. rewrite Hd. apply (ll_log_dim L near HL).
  - rewrite Hd. apply repeat_length.
  - intros t Ht. assert (Hl : length (vscale t d) = dim) by (unfold vscale; rewrite map_length; auto).
    rewrite between_linear_b by (rewrite ?vneg_vscale; auto). cbn [between_jacobians nth]. rewrite neg_eye_mvec by auto.
    rewrite vneg_vscale. rewrite vadd_zero_l; auto. unfold vscale. rewrite map_length, vneg_length. auto.
Qed.
Lemma between_derivative_a Tab a d : length d = dim ->
  vderiv (fun t => between_residual L Tab (lie_retract L a (vscale t d)) (a ** Tab)) (mvec (nth 0 (between_jacobians L Tab a (a ** Tab)) []) d).
Proof.
  intros Hd. cbn [between_jacobians nth]. rewrite (cancel_l L HG a Tab).
  assert (HA : length (mvec (lg_adj L Tab^-) d) = dim) by (unfold mvec; rewrite map_length; apply (ll_adj_shape L near HL)).
  destruct (near_line (mvec (lg_adj L Tab^-) d) HA) as (e & He & Hn).
  apply (vderiv_local _ (vzero dim) _ e He); rewrite ?HA.
  - intros t. apply (ll_log_dim L near HL).
  - apply repeat_length.
  - intros t Ht. assert (Hl : length (vscale t d) = dim) by (unfold vscale; rewrite map_length; auto).
    rewrite between_linear_a by (rewrite ?mvec_vscale'; auto). cbn [between_jacobians nth]. rewrite (cancel_l L HG a Tab).
    rewrite mvec_vscale', vadd_zero_l; auto. unfold vscale. rewrite map_length. auto.
Qed.
End Lie.

(* ----- SO(2) ----- *)
Lemma rot_ext a b : rc a = rc b -> rs a = rs b -> a = b.
Proof.
  destruct a as [c s Hu], b as [c' s' Hu']. cbn. intros <- <-. f_equal. apply UIP_dec. apply Req_EM_T.
Qed.
Lemma rc_bound a : -1 <= rc a <= 1.
Proof. pose proof (r_unit a) as H. split; nra. Qed.
Lemma rs_sqr a : rs a * rs a = 1 - Rsqr (rc a).
Proof. pose proof (r_unit a) as H. unfold Rsqr. lra. Qed.

Lemma cos_angle a : cos (angle a) = rc a.
Proof. unfold angle. destruct (Rlt_dec (rs a) 0); rewrite ?cos_neg; apply cos_acos, rc_bound. Qed.
Lemma sin_angle a : sin (angle a) = rs a.
Proof.
  assert (H : sin (acos (rc a)) = Rabs (rs a)).
  { rewrite sin_acos by apply rc_bound. rewrite <- rs_sqr. apply sqrt_Rsqr_abs. }
  unfold angle. destruct (Rlt_dec (rs a) 0) as [Hs|Hs].
  - rewrite sin_neg, H. rewrite Rabs_left by auto. ring.
  - rewrite H. apply Rabs_right. lra.
Qed.
Lemma angle_bound a : - PI < angle a <= PI.
Proof.
  pose proof (acos_bound (rc a)) as Hb. pose proof PI_RGT_0. unfold angle. destruct (Rlt_dec (rs a) 0) as [Hs|Hs]; [|lra].
  split; [|lra]. assert (acos (rc a) <> PI); [|lra]. intros E.
  pose proof (cos_acos (rc a) (rc_bound a)) as Hc. rewrite E, cos_PI in Hc. pose proof (r_unit a). nra.
Qed.

Lemma angle_unique x y : - PI < x <= PI -> - PI < y <= PI -> cos x = cos y -> sin x = sin y -> x = y.
Proof.
  intros Hx Hy Hc Hs. pose proof PI_RGT_0 as Hpi.
  assert (H0 : sin (x - y) = 0) by (rewrite sin_minus, Hc, Hs; ring).
  assert (H1 : cos (x - y) = 1) by (rewrite cos_minus, Hc, Hs; pose proof (rot_exp_unit y); lra).
  destruct (sin_eq_0_0 _ H0) as (k & Hk).
  assert (Hk2 : (-2 < k < 2)%Z).
  { split; apply lt_IZR; apply (Rmult_lt_reg_r PI); auto; lra. }
  assert (Hk3 : (k = -1 \/ k = 0 \/ k = 1)%Z) by lia. destruct Hk3 as [-> | [-> | ->]].
  - rewrite Hk in H1. replace (-1 * PI) with (- PI) in H1 by ring. rewrite cos_neg, cos_PI in H1. lra.
  - lra.
  - rewrite Hk in H1. replace (1 * PI) with PI in H1 by ring. rewrite cos_PI in H1. lra.
Qed.
Lemma angle_exp t : - PI < t <= PI -> angle (rot_exp t) = t.
Proof. intros Ht. apply angle_unique; auto; [apply angle_bound | rewrite cos_angle; auto | rewrite sin_angle; auto]. Qed.
Lemma exp_angle a : rot_exp (angle a) = a.
Proof. apply rot_ext; cbn; [apply cos_angle | apply sin_angle]. Qed.

Lemma rot_assoc a b c : rot_mul a (rot_mul b c) = rot_mul (rot_mul a b) c.
Proof. apply rot_ext; cbn; ring. Qed.
Lemma rot_one_l a : rot_mul rot_one a = a. Proof. apply rot_ext; cbn; ring. Qed.
Lemma rot_one_r a : rot_mul a rot_one = a. Proof. apply rot_ext; cbn; ring. Qed.
Lemma rot_inv_l a : rot_mul (rot_inv a) a = rot_one.
Proof. pose proof (r_unit a). apply rot_ext; cbn; [lra | ring]. Qed.
Lemma rot_inv_r a : rot_mul a (rot_inv a) = rot_one.
Proof. pose proof (r_unit a). apply rot_ext; cbn; [lra | ring]. Qed.
Lemma rot_comm a b : rot_mul a b = rot_mul b a. Proof. apply rot_ext; cbn; ring. Qed.
Lemma rot_exp_neg t : rot_exp (- t) = rot_inv (rot_exp t).
Proof. apply rot_ext; cbn; [apply cos_neg | apply sin_neg]. Qed.
Lemma rot_exp_plus s t : rot_exp (s + t) = rot_mul (rot_exp s) (rot_exp t).
Proof. apply rot_ext; cbn; [rewrite cos_plus | rewrite sin_plus]; ring. Qed.
Lemma rot_exp_0 : rot_exp 0 = rot_one.
Proof. apply rot_ext; cbn; [apply cos_0 | apply sin_0]. Qed.

Lemma so2_laws : lie_laws SO2 near_so2.
Proof.
  pose proof PI_RGT_0 as Hpi. constructor; cbn.
  - constructor; cbn; [apply rot_assoc | apply rot_one_l | apply rot_one_r | apply rot_inv_l | apply rot_inv_r].
  - auto.
  - apply rot_exp_0.
  - intros g. apply exp_angle.
  - intros [|t [|]] Hd Hn; try discriminate. unfold near_so2 in Hn. cbn in *. rewrite angle_exp by lra. auto.
  - intros [|t [|]] Hd; try discriminate. cbn. apply rot_exp_neg.
  - intros _. split; [reflexivity | repeat constructor].
  - intros g [|t [|]] Hd; try discriminate. unfold mvec, vdot, vmul, vsum. cbn. rn.
    rewrite (rot_comm (rot_mul g _)), rot_assoc, rot_inv_l, rot_one_l. f_equal. ring.
  - exists PI. split; auto. intros d _ H. specialize (H 0%nat). unfold near_so2. apply Rabs_def2 in H. lra.
Qed.

(* SO(2): the Jacobian -1 is right wherever the residual is not at the cut *)
Lemma so2_derivative mu x d : length d = 1%nat -> angle (rot_mul (rot_inv x) mu) <> PI ->
  vderiv (fun t => prior_residual SO2 mu (lie_retract SO2 x (vscale t d))) (mvec (nth 0 (prior_jacobians SO2 mu x) []) d).
Proof.
  intros Hd Hc. cbn [prior_jacobians nth]. rewrite neg_eye_mvec by auto. destruct d as [|u [|]]; try discriminate.
  set (a := angle (rot_mul (rot_inv x) mu)) in *. pose proof (angle_bound (rot_mul (rot_inv x) mu)) as Hb. fold a in Hb.
  set (e := Rmin (PI - a) (PI + a)). assert (He : 0 < e) by (apply Rmin_pos; lra).
  assert (Hu : 0 < Rabs u + 1) by (pose proof (Rabs_pos u); lra).
  apply (vderiv_local _ [a] _ (e / (Rabs u + 1))); auto; [apply Rdiv_lt_0_compat; auto|].
  intros t Ht. cbn. f_equal. rn.
  assert (Htu : Rabs (t * u) < e).
  { rewrite Rabs_mult. apply Rle_lt_trans with (Rabs t * (Rabs u + 1)); [apply Rmult_le_compat_l; [apply Rabs_pos | lra]|].
    apply Rlt_le_trans with (e / (Rabs u + 1) * (Rabs u + 1)); [apply Rmult_lt_compat_r; auto|]. right. field. lra. }
  assert (E : rot_mul (rot_inv (rot_mul x (rot_exp (t * u)))) mu = rot_exp (a + t * - u)).
  { rewrite rot_exp_plus. unfold a. rewrite exp_angle. replace (t * - u) with (- (t * u)) by ring. rewrite rot_exp_neg. apply rot_ext; cbn; ring. }
  rewrite E. apply angle_exp. apply Rabs_def2 in Htu. pose proof (Rmin_l (PI - a) (PI + a)). pose proof (Rmin_r (PI - a) (PI + a)). fold e in H, H0.
  split; lra.
Qed.

(* ----- SE(2) ----- *)
Lemma pose_ext a b : pr a = pr b -> px a = px b -> py a = py b -> a = b.
Proof. destruct a, b; cbn; congruence. Qed.

Lemma cos_ne_1 t : - PI < t <= PI -> t <> 0 -> cos t - 1 <> 0.
Proof.
  intros Ht Hne H. apply Hne. pose proof PI_RGT_0. apply angle_unique; try lra; [rewrite cos_0; lra|].
  rewrite sin_0. pose proof (rot_exp_unit t). nra.
Qed.

Lemma v_inv t : - PI < t <= PI -> v_a t * v_s t + t / 2 * v_c t = 1 /\ - (v_a t * v_c t) + t / 2 * v_s t = 0.
Proof.
  intros Ht. unfold v_a, v_s, v_c. destruct (Req_EM_T t 0) as [->|Hne]; [split; field|].
  pose proof (cos_ne_1 t Ht Hne) as Hc. pose proof (rot_exp_unit t) as Hu. split.
  - transitivity ((sin t * sin t + (1 - cos t) * (1 - cos t)) / (2 * (1 - cos t))); [field; split; lra|].
    replace (sin t * sin t) with (1 - cos t * cos t) by lra. field. lra.
  - field. split; lra.
Qed.

Lemma se2_laws : lie_laws SE2 near_se2.
Proof.
  pose proof PI_RGT_0 as Hpi. constructor; cbn [SE2 lg_one lg_mul lg_inv lg_exp lg_log lg_adj lg_dim].
  - constructor; cbn [SE2 lg_one lg_mul lg_inv lg_exp lg_log lg_adj lg_dim].
    + intros a b c. apply pose_ext; cbn; [apply rot_assoc | ring | ring].
    + intros a. apply pose_ext; cbn; [apply rot_one_l | ring | ring].
    + intros a. apply pose_ext; cbn; [apply rot_one_r | ring | ring].
    + intros a. apply pose_ext; cbn; [apply rot_inv_l | ring | ring].
    + intros a. pose proof (r_unit (pr a)) as H. apply pose_ext; cbn; [apply rot_inv_r | |].
      * transitivity (px a * (1 - (rc (pr a) * rc (pr a) + rs (pr a) * rs (pr a)))); [ring | rewrite H; ring].
      * transitivity (py a * (1 - (rc (pr a) * rc (pr a) + rs (pr a) * rs (pr a)))); [ring | rewrite H; ring].
  - reflexivity.
  - apply pose_ext; cbn; [apply rot_exp_0 | |]; unfold v_s, v_c; destruct (Req_EM_T 0 0); try ring; lra.
  - intros g. pose proof (angle_bound (pr g)) as Hb. destruct (v_inv _ Hb) as [H1 H2]. apply pose_ext; cbn.
    + apply exp_angle.
    + set (t := angle (pr g)) in *.
      transitivity (px g * (v_a t * v_s t + t / 2 * v_c t) + py g * - (- (v_a t * v_c t) + t / 2 * v_s t) + (2 * (t / 2 * v_s t) - 2 * (v_a t * v_c t)) * py g); [ring|].
      assert (E : v_a t * v_c t = t / 2 * v_s t) by lra. rewrite H1, H2, E. ring.
    + set (t := angle (pr g)) in *.
      transitivity (px g * (- (- (v_a t * v_c t) + t / 2 * v_s t)) + py g * (v_a t * v_s t + t / 2 * v_c t)); [ring|]. rewrite H1, H2. ring.
  - intros [|x [|y [|t [|]]]] Hd Hn; try discriminate. unfold near_se2 in Hn. cbn in Hn. unfold pose_log, pose_exp. cbn.
    rewrite angle_exp by lra. assert (Ht : - PI < t <= PI) by lra. destruct (v_inv t Ht) as [H1 H2]. repeat f_equal.
    + transitivity ((v_a t * v_s t + t / 2 * v_c t) * x + (- (v_a t * v_c t) + t / 2 * v_s t) * y); [ring|]. rewrite H1, H2. ring.
    + transitivity (- (- (v_a t * v_c t) + t / 2 * v_s t) * x + (v_a t * v_s t + t / 2 * v_c t) * y); [ring|]. rewrite H1, H2. ring.
  - intros [|x [|y [|t [|]]]] Hd; try discriminate. pose proof (rot_exp_unit t) as Hu. unfold pose_exp, pose_inv. cbn. rn.
    assert (Es : v_s (- t) = v_s t).
    { unfold v_s. destruct (Req_EM_T t 0), (Req_EM_T (- t) 0); try lra. rewrite sin_neg. field. auto. }
    assert (Ec : v_c (- t) = - v_c t).
    { unfold v_c. destruct (Req_EM_T t 0), (Req_EM_T (- t) 0); try lra. rewrite cos_neg. field. auto. }
    assert (E1 : cos t * v_s t + sin t * v_c t = v_s t).
    { unfold v_s, v_c. destruct (Req_EM_T t 0) as [->|]; [rewrite cos_0; ring|]. field. auto. }
    assert (E2 : - sin t * v_s t + cos t * v_c t = - v_c t).
    { unfold v_s, v_c. destruct (Req_EM_T t 0) as [->|]; [rewrite sin_0; ring|].
      transitivity ((- (sin t * sin t) + cos t - cos t * cos t) / t); [field; auto|]. replace (sin t * sin t) with (1 - cos t * cos t) by lra. field. auto. }
    apply pose_ext; cbn; [apply rot_exp_neg | |]; rewrite Es, Ec.
    + transitivity (- ((cos t * v_s t + sin t * v_c t) * x - (- sin t * v_s t + cos t * v_c t) * y)); [rewrite E1, E2; ring | ring].
    + transitivity (- ((- sin t * v_s t + cos t * v_c t) * x + (cos t * v_s t + sin t * v_c t) * y)); [rewrite E1, E2; ring | ring].
  - intros g. split; [reflexivity | repeat constructor].
  - intros g [|x [|y [|t [|]]]] Hd; try discriminate. unfold mvec, vdot, vmul, vsum. cbn. rn. unfold pose_exp. cbn.
    replace (0 * x + (0 * y + (1 * t + 0))) with t by ring.
    assert (Es : v_s t * t = sin t). { unfold v_s. destruct (Req_EM_T t 0) as [->|]; [rewrite sin_0; ring | field; auto]. }
    assert (Ec : v_c t * t = 1 - cos t). { unfold v_c. destruct (Req_EM_T t 0) as [->|]; [rewrite cos_0; ring | field; auto]. }
    pose proof (r_unit (pr g)) as Hu.
    apply pose_ext; cbn.
    + rewrite (rot_comm (rot_mul (pr g) _)), rot_assoc, rot_inv_l, rot_one_l. auto.
    + set (c := rc (pr g)) in *. set (s := rs (pr g)) in *. set (p := px g). set (q := py g).
      transitivity (v_s t * (c * x - s * y) - v_c t * (s * x + c * y) + (v_s t * t) * q + (v_c t * t) * p); [ring|]. rewrite Es, Ec.
      transitivity (c * (v_s t * x - v_c t * y) - s * (v_c t * x + v_s t * y) + p
        - ((c * c + s * s) * (cos t * p - sin t * q))); [rewrite Hu; ring | ring].
    + set (c := rc (pr g)) in *. set (s := rs (pr g)) in *. set (p := px g). set (q := py g).
      transitivity (v_c t * (c * x - s * y) + v_s t * (s * x + c * y) + (v_c t * t) * q - (v_s t * t) * p); [ring|]. rewrite Es, Ec.
      transitivity (s * (v_s t * x - v_c t * y) + c * (v_c t * x + v_s t * y) + q
        - ((c * c + s * s) * (sin t * p + cos t * q))); [rewrite Hu; ring | ring].
  - exists PI. split; auto. intros d _ H. specialize (H 2%nat). unfold near_se2. apply Rabs_def2 in H. lra.
Qed.

(* along a translation, the derivative of the prior residual is - V^-1 (angle) *)
Lemma se2_derivative mu x u v : let t := angle (rot_mul (rot_inv (pr x)) (pr mu)) in
  vderiv (fun s => prior_residual SE2 mu (lie_retract SE2 x (vscale s [u; v; 0])))
         [- (v_a t * u + t / 2 * v); - (- (t / 2) * u + v_a t * v); 0].
Proof.
  intros t. set (g := pose_mul (pose_inv x) mu).
  apply (vderiv_local _ (pose_log g) _ 1); [lra | reflexivity | reflexivity|].
  intros s _. assert (E : pose_mul (pose_inv (pose_mul x (pose_exp (vscale s [u; v; 0])))) mu =
     mkPose (pr g) (px g - s * u) (py g - s * v)).
  { assert (Ee : pose_exp (vscale s [u; v; 0]) = mkPose rot_one (s * u) (s * v)).
    { unfold pose_exp. cbn. rn. replace (s * 0) with 0 by ring. unfold v_s, v_c. destruct (Req_EM_T 0 0); [|lra].
      apply pose_ext; cbn; [apply rot_exp_0 | ring | ring]. }
    rewrite Ee. pose proof (r_unit (pr x)) as Hu. apply pose_ext; cbn; [apply rot_ext; cbn; ring | |].
    - transitivity (rc (pr x) * px mu - - rs (pr x) * py mu + - (rc (pr x) * px x + rs (pr x) * py x) - (rc (pr x) * rc (pr x) + rs (pr x) * rs (pr x)) * (s * u)); [ring | rewrite Hu; ring].
    - transitivity (- rs (pr x) * px mu + rc (pr x) * py mu + - (- rs (pr x) * px x + rc (pr x) * py x) - (rc (pr x) * rc (pr x) + rs (pr x) * rs (pr x)) * (s * v)); [ring | rewrite Hu; ring]. }
  unfold prior_residual, rminus, lie_retract, rplus. cbn [SE2 lg_mul lg_inv lg_exp lg_log]. rewrite E.
  unfold pose_log. cbn. fold t. rn. repeat (f_equal; try ring).
Qed.

Lemma deriv_unique F d d' : vderiv F d -> vderiv F d' -> d = d'.
Proof.
  intros [H1 H2] [H3 H4]. apply (nth_ext _ _ 0 0).
  - rewrite <- (H1 0), <- (H3 0). auto.
  - intros k _. eapply uniqueness_limite; eauto.
Qed.

Lemma se2_jacobian_iff mu x :
  vderiv (fun s => prior_residual SE2 mu (lie_retract SE2 x (vscale s [1; 0; 0]))) (mvec (nth 0 (prior_jacobians SE2 mu x) []) [1; 0; 0])
  <-> pr x = pr mu.
Proof.
  pose proof (se2_derivative mu x 1 0) as H. cbn zeta in H. set (t := angle (rot_mul (rot_inv (pr x)) (pr mu))) in *.
  cbn [prior_jacobians nth]. rewrite neg_eye_mvec by reflexivity.
  assert (Hz : t = 0 <-> pr x = pr mu).
  { unfold t. split.
    - intros E. pose proof (exp_angle (rot_mul (rot_inv (pr x)) (pr mu))) as Ea. rewrite E, rot_exp_0 in Ea.
      transitivity (rot_mul (pr x) rot_one); [rewrite rot_one_r; auto|]. rewrite Ea, rot_assoc, rot_inv_r. apply rot_one_l.
    - intros ->. rewrite rot_inv_l. rewrite <- rot_exp_0. pose proof PI_RGT_0. apply angle_exp. lra. }
  rewrite <- Hz. split.
  - intros H'. pose proof (deriv_unique _ _ _ H H') as E. unfold vneg in E. cbn in E. rn. injection E as E1 E2. lra.
  - intros E. rewrite E in H. unfold vneg. cbn. rn.
    replace [- (1); - 0; - 0] with [- (v_a 0 * 1 + 0 / 2 * 0); - (- (0 / 2) * 1 + v_a 0 * 0); 0]; auto.
    unfold v_a. destruct (Req_EM_T 0 0); [|lra]. repeat (f_equal; try field).
Qed.
