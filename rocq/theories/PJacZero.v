(* Proofs: where the measurement of a planar pose factor holds, its Jacobian is the derivative of
   its residual along retractions of all variables at once. *)
From Coq Require Import List Arith Bool Lia Reals Lra ZArith.
From Verif Require Import Num NumR Py Arr MLayout MAssign MNoise MSparse MFactor MGraph MLie MPose SpecNoise SpecLayout SpecTree SpecAssign SpecLie SpecGraph SpecSparse SpecDeriv SpecPose SpecZero.
From Verif Require Import PBase PVec PLayout PAssign PGraph PGraph4 PHold PNoise PGraph2 PDeriv PExGraph PLie PExLie PPose PFrame PZero.
Import ListNotations.
Local Open Scope R_scope.

(* ---- continuity at 0 ---- *)
Lemma cplus f g x : continuity_pt f x -> continuity_pt g x -> continuity_pt (fun t => f t + g t) x.
Proof. apply continuity_pt_plus. Qed.
Lemma cminus f g x : continuity_pt f x -> continuity_pt g x -> continuity_pt (fun t => f t - g t) x.
Proof. apply continuity_pt_minus. Qed.
Lemma cmult f g x : continuity_pt f x -> continuity_pt g x -> continuity_pt (fun t => f t * g t) x.
Proof. apply continuity_pt_mult. Qed.
Lemma cconst k x : continuity_pt (fun _ => k) x.
Proof. apply continuity_pt_const. intros y z. auto. Qed.
Lemma cid x : continuity_pt (fun t => t) x.
Proof. apply derivable_continuous_pt, derivable_pt_id. Qed.
Lemma quotient_continuous f l : f 0 = 0 -> derivable_pt_lim f 0 l -> continuity_pt (fun t => if Req_EM_T t 0 then l else f t / t) 0.
Proof.
  intros H0 H. intros e He. destruct (H e He) as (d & Hd). exists d. split; [apply cond_pos|]. intros t (_ & Ht). cbn in *. unfold R_dist in *.
  destruct (Req_EM_T 0 0); [|contradiction]. destruct (Req_EM_T t 0) as [->|Hn]; [rewrite Rminus_diag_eq, Rabs_R0; auto|].
  specialize (Hd t Hn). rewrite Rminus_0_r in Ht. specialize (Hd Ht). rewrite Rplus_0_l, H0, Rminus_0_r in Hd. auto.
Qed.
Lemma v_s_cont : continuity_pt v_s 0.
Proof. apply (quotient_continuous sin 1); [apply sin_0|]. rewrite <- cos_0. apply derivable_pt_lim_sin. Qed.
Lemma v_c_cont : continuity_pt v_c 0.
Proof.
  apply (quotient_continuous (fun t => 1 - cos t) 0); [rewrite cos_0; ring|].
  replace 0 with (0 - - sin 0) at 2 by (rewrite sin_0; ring).
  apply (derivable_pt_lim_minus (fun _ => 1) cos); [apply derivable_pt_lim_const | apply derivable_pt_lim_cos].
Qed.
Lemma v_s_0 : v_s 0 = 1. Proof. unfold v_s. destruct (Req_EM_T 0 0); auto. contradiction. Qed.
Lemma v_c_0 : v_c 0 = 0. Proof. unfold v_c. destruct (Req_EM_T 0 0); auto. contradiction. Qed.
Lemma v_a_0 : v_a 0 = 1. Proof. unfold v_a. destruct (Req_EM_T 0 0); auto. contradiction. Qed.
Lemma scaled_cont f k : continuity_pt f 0 -> continuity_pt (fun t => f (t * k)) 0.
Proof.
  intros H. apply (continuity_pt_comp (fun t => t * k) f); [apply cmult; [apply cid | apply cconst]|]. rewrite Rmult_0_l. auto.
Qed.
Lemma cont_local f g x e : 0 < e -> (forall t, Rabs (t - x) < e -> f t = g t) -> continuity_pt g x -> continuity_pt f x.
Proof.
  intros He Heq H eps Heps. destruct (H eps Heps) as (d & Hd & Hc). exists (Rmin d e). split; [apply Rmin_glb_lt; auto|].
  intros t (Ht & Hdist). cbn in *. unfold R_dist in *. rewrite (Heq t), (Heq x).
  - apply Hc. split; auto. eapply Rlt_le_trans; [exact Hdist | apply Rmin_l].
  - rewrite Rminus_diag_eq, Rabs_R0; auto.
  - eapply Rlt_le_trans; [exact Hdist | apply Rmin_r].
Qed.
Lemma v_a_cont : continuity_pt v_a 0.
Proof.
  destruct (v_s_cont (1 / 2)) as (d & Hd & Hc); [lra|].
  apply (cont_local _ (fun t => (1 - t / 2 * v_c t) * / v_s t) 0 (Rmin d 1)); [apply Rmin_glb_lt; lra| |].
  - intros t Ht. rewrite Rminus_0_r in Ht. assert (H1 : Rabs t < 1) by (eapply Rlt_le_trans; [exact Ht | apply Rmin_r]).
    assert (H2 : Rabs t < d) by (eapply Rlt_le_trans; [exact Ht | apply Rmin_l]).
    apply Rabs_def2 in H1. pose proof PI2_3_2 as Hp. unfold PI2 in Hp.
    destruct (v_inv t) as (Hv & _); [lra|].
    assert (Hs : v_s t <> 0).
    { destruct (Req_EM_T t 0) as [->|Hn]; [rewrite v_s_0; lra|]. specialize (Hc t). cbn in Hc. unfold R_dist in Hc. rewrite v_s_0 in Hc. intros E. rewrite E in Hc.
      assert (Hq : Rabs (0 - 1) < 1 / 2). { apply Hc. split; [split; [exact I|intro; apply Hn; auto]|]. rewrite Rminus_0_r. auto. }
      rewrite Rabs_left in Hq by lra. lra. }
    rewrite <- Hv. field. auto.
  - apply cmult.
    + apply cminus; [apply cconst|]. apply cmult; [|apply v_c_cont]. unfold Rdiv. apply cmult; [apply cid|apply cconst].
    + apply (continuity_pt_inv v_s); [apply v_s_cont|]. rewrite v_s_0. lra.
Qed.
Lemma cos_cont k : continuity_pt (fun t => cos (t * k)) 0.
Proof. apply scaled_cont. apply continuity_cos. Qed.
Lemma sin_cont k : continuity_pt (fun t => sin (t * k)) 0.
Proof. apply scaled_cont. apply continuity_sin. Qed.
Lemma times_derivable F : continuity_pt F 0 -> derivable_pt_lim (fun t => t * F t) 0 (F 0).
Proof.
  intros H e He. destruct (H e He) as (d & Hd & Hc). exists (mkposreal d Hd). intros h Hh Hlt. cbn in Hlt.
  rewrite Rplus_0_l, Rmult_0_l, Rminus_0_r. replace (h * F h / h) with (F h) by (field; auto).
  apply (Hc h). split; [split; [exact I|auto]|]. cbn. unfold R_dist. rewrite Rminus_0_r. auto.
Qed.

(* ---- both ends move: the quotient of two exponentials ---- *)
Definition pair_derivative {G} (L : lie_ops R G) : Prop := forall e d, length e = lg_dim L -> length d = lg_dim L ->
  vderiv (fun t => lg_log L (lg_mul L (lg_inv L (lg_exp L (vscale t d))) (lg_exp L (vscale t e)))) (vsub e d).

Lemma rot_quotient x y : rot_mul (rot_inv (rot_exp x)) (rot_exp y) = rot_exp (y - x).
Proof. rewrite <- rot_exp_neg, <- rot_exp_plus. f_equal. ring. Qed.
Lemma small k : exists e, 0 < e /\ forall t, Rabs t < e -> - PI < t * k <= PI.
Proof.
  pose proof PI_RGT_0 as Hp. pose proof (Rabs_pos k) as Hk. exists (PI / (Rabs k + 1)). split; [apply Rdiv_lt_0_compat; lra|].
  intros t Ht. assert (H : Rabs (t * k) < PI).
  { rewrite Rabs_mult. apply Rle_lt_trans with (Rabs t * (Rabs k + 1)); [apply Rmult_le_compat_l; [apply Rabs_pos|lra]|].
    apply Rlt_le_trans with (PI / (Rabs k + 1) * (Rabs k + 1)); [apply Rmult_lt_compat_r; lra|]. right. field. lra. }
  apply Rabs_def2 in H. lra.
Qed.
Lemma so2_pair : pair_derivative SO2.
Proof.
  intros e d He Hd. destruct e as [|e [|]]; try discriminate. destruct d as [|d [|]]; try discriminate.
  destruct (small (e - d)) as (eps & Hpos & Hs). cbn -[angle]. unfold vsub. cbn [zipw nsub NumR]. split; [reflexivity|]. intros [|k].
  - cbn [nth]. apply (derivable_local _ (fun t => t * (e - d)) _ eps); auto.
    + intros t Ht. rewrite rot_quotient. rewrite angle_exp; [ring|]. specialize (Hs t Ht). rn. replace (t * e - t * d) with (t * (e - d)) by ring. auto.
    + apply (times_derivable (fun _ => e - d)), cconst.
  - cbn [nth]. destruct k; apply derivable_pt_lim_const.
Qed.
Lemma se2_pair : pair_derivative SE2.
Proof.
  intros e d He Hd. destruct e as [|e0 [|e1 [|e2 [|]]]]; try discriminate. destruct d as [|d0 [|d1 [|d2 [|]]]]; try discriminate.
  destruct (small (e2 - d2)) as (eps & Hpos & Hs). unfold vsub. cbn [zipw nsub NumR].
  set (hx := fun t => (v_s (t * e2) * e0 - v_c (t * e2) * e1) - (v_s (t * d2) * d0 - v_c (t * d2) * d1)).
  set (hy := fun t => (v_c (t * e2) * e0 + v_s (t * e2) * e1) - (v_c (t * d2) * d0 + v_s (t * d2) * d1)).
  set (gx := fun t => cos (t * d2) * hx t + sin (t * d2) * hy t). set (gy := fun t => - 1 * sin (t * d2) * hx t + cos (t * d2) * hy t).
  assert (Hlog : forall t, Rabs t < eps -> lg_log SE2 (lg_mul SE2 (lg_inv SE2 (lg_exp SE2 (vscale t [d0; d1; d2]))) (lg_exp SE2 (vscale t [e0; e1; e2]))) =
    [t * (v_a (t * (e2 - d2)) * gx t + t * ((e2 - d2) / 2) * gy t); t * (- (1) * (t * ((e2 - d2) / 2)) * gx t + v_a (t * (e2 - d2)) * gy t); t * (e2 - d2)]).
  { intros t Ht. cbn [lg_log lg_mul lg_inv lg_exp SE2]. unfold vscale. cbn [map nmul NumR]. unfold pose_log, pose_mul, pose_inv, pose_exp. cbn [nth pr px py].
    rewrite rot_quotient. replace (t * e2 - t * d2) with (t * (e2 - d2)) by ring. rewrite angle_exp by auto. unfold gx, gy, hx, hy. cbn [rc rs rot_inv rot_exp].
    lists; field. }
  assert (Cx : continuity_pt hx 0) by (unfold hx; repeat (apply cminus || apply cplus || (apply cmult; [|apply cconst])); apply scaled_cont; (apply v_s_cont || apply v_c_cont)).
  assert (Cy : continuity_pt hy 0) by (unfold hy; repeat (apply cminus || apply cplus || (apply cmult; [|apply cconst])); apply scaled_cont; (apply v_s_cont || apply v_c_cont)).
  assert (Gx : continuity_pt gx 0) by (unfold gx; apply cplus; apply cmult; auto; [apply cos_cont | apply sin_cont]).
  assert (Gy : continuity_pt gy 0) by (unfold gy; apply cplus; apply cmult; auto; [apply cmult; [apply cconst | apply sin_cont] | apply cos_cont]).
  assert (Hx0 : gx 0 = e0 - d0) by (unfold gx, hx, hy; rewrite !Rmult_0_l, v_s_0, v_c_0, cos_0, sin_0; ring).
  assert (Hy0 : gy 0 = e1 - d1) by (unfold gy, hx, hy; rewrite !Rmult_0_l, v_s_0, v_c_0, cos_0, sin_0; ring).
  assert (Ca : continuity_pt (fun t => v_a (t * (e2 - d2))) 0) by (apply scaled_cont, v_a_cont).
  assert (Ct : continuity_pt (fun t => t * ((e2 - d2) / 2)) 0) by (apply cmult; [apply cid | apply cconst]).
  split; [reflexivity|]. intros k.
  apply (derivable_local _ (fun t => nth k [t * (v_a (t * (e2 - d2)) * gx t + t * ((e2 - d2) / 2) * gy t); t * (- (1) * (t * ((e2 - d2) / 2)) * gx t + v_a (t * (e2 - d2)) * gy t); t * (e2 - d2)] 0) _ eps); auto.
  { intros t Ht. rewrite Hlog by auto. auto. }
  destruct k as [|[|[|k]]]; cbn [nth].
  - assert (C : continuity_pt (fun t => v_a (t * (e2 - d2)) * gx t + t * ((e2 - d2) / 2) * gy t) 0) by (apply cplus; apply cmult; auto).
    apply times_derivable in C. cbv beta in C. rewrite Hx0, Hy0, !Rmult_0_l, v_a_0, Rmult_1_l, Rplus_0_r in C. exact C.
  - assert (C : continuity_pt (fun t => - (1) * (t * ((e2 - d2) / 2)) * gx t + v_a (t * (e2 - d2)) * gy t) 0) by (apply cplus; apply cmult; auto; apply cmult; auto; apply cconst).
    apply times_derivable in C. cbv beta in C. rewrite Hx0, Hy0, !Rmult_0_l, v_a_0, Rmult_0_r, Rmult_0_l, Rmult_1_l, Rplus_0_l in C. exact C.
  - apply (times_derivable (fun _ => e2 - d2)), cconst.
  - destruct k; apply derivable_pt_lim_const.
Qed.

Section Joint.
Context {G : Type} (L : lie_ops R G) (near : list R -> Prop) (HL : lie_laws L near) (HP : pair_derivative L).
Let HG := ll_group L near HL.
Notation "a ** b" := (lg_mul L a b) (at level 40, left associativity).
Notation "a ^-" := (lg_inv L a) (at level 2, format "a ^-").

Lemma between_joint Tab a da db : length da = lg_dim L -> length db = lg_dim L ->
  vderiv (fun t => between_residual L Tab (lie_retract L a (vscale t da)) (lie_retract L (a ** Tab) (vscale t db)))
         (vsub (mvec (lg_adj L (lg_inv L Tab)) da) db).
Proof.
  intros Ha Hb. pose proof (ll_adj_shape L near HL (lg_inv L Tab)) as (Hr & _).
  assert (Hl : length (mvec (lg_adj L (lg_inv L Tab)) da) = lg_dim L) by (unfold mvec; rewrite map_length; auto).
  destruct (HP _ db Hl Hb) as (H1 & H2).
  assert (E : forall t, between_residual L Tab (lie_retract L a (vscale t da)) (lie_retract L (a ** Tab) (vscale t db)) =
    lg_log L ((lg_exp L (vscale t db))^- ** lg_exp L (vscale t (mvec (lg_adj L (lg_inv L Tab)) da)))).
  { intros t. rewrite (between_formula L HG). f_equal. unfold lie_retract, rplus. rewrite <- mvec_vscale'.
    rewrite (ll_adj L near HL) by (unfold vscale; rewrite map_length; auto). rewrite (inv_inv L HG).
    rewrite !(inv_mul L HG). rewrite <- !(gl_assoc L HG). do 2 f_equal. rewrite (gl_assoc L HG a^- a), (gl_inv_l L HG), (gl_one_l L HG). auto. }
  split.
  - intros t. rewrite E. apply H1.
  - intros k. eapply (derivable_local _ _ _ 1); [lra| |apply H2]. intros t _. rewrite E. auto.
Qed.
End Joint.

(* ---- parameter vectors ---- *)
Record planar_model (raw : lie_ops R (list R)) : Prop := mkPM {
  pm_model : exists (G : Type) (L : lie_ops R G) (rep : G -> list R) (near : list R -> Prop),
    represents rep raw L /\ lie_laws L near /\ pair_derivative L /\ forall p, sized_pose raw p -> norm2 p = 1 -> exists x, p = rep x }.
Lemma planar_modelled raw : planar raw -> planar_model raw.
Proof.
  destruct groups as (Hse & Hso & _ & _). intros []; constructor.
  - exists rot, SO2, rot_params, near_so2. split; [apply so2_represented|]. split; [auto|]. split; [apply so2_pair|].
    intros p Hl Hn. unfold sized_pose in Hl. destruct p as [|c [|s [|]]]; try discriminate. exists (mkRot c s Hn). reflexivity.
  - exists pose, SE2, pose_params, near_se2. split; [apply se2_represented|]. split; [auto|]. split; [apply se2_pair|].
    intros p Hl Hn. unfold sized_pose in Hl. destruct p as [|c [|s [|x [|y [|]]]]]; try discriminate. exists (mkPose (mkRot c s Hn) x y). reflexivity.
Qed.

Lemma planar_same raw p q : planar raw -> same_pose raw p q -> p = q.
Proof. intros Hp [H|(Hs & _)]; auto. exfalso. eapply not_both; eauto. Qed.

Lemma vderiv_ext F F' d : (forall t, F t = F' t) -> vderiv F' d -> vderiv F d.
Proof.
  intros E (H1 & H2). split; [intros t; rewrite E; auto|]. intros k. eapply (derivable_local _ _ _ 1); [lra| |apply H2]. intros t _. rewrite E. auto.
Qed.
Lemma raw_prior raw p d : planar raw -> sized_pose raw p -> norm2 p = 1 -> length d = lg_dim raw ->
  vderiv (fun t => prior_residual raw p (lie_retract raw p (vscale t d))) (mvec (neg_eye (lg_dim raw)) d).
Proof.
  intros Hp Hl Hn Hd. destruct (planar_modelled raw Hp) as [(G & L & rep & near & Hr & HL & HP & Hx)]. destruct (Hx p Hl Hn) as (x & ->).
  rewrite (rp_dim _ _ _ Hr) in *. pose proof (prior_derivative L near HL x d Hd) as H. cbn [prior_jacobians nth] in H.
  eapply vderiv_ext; [|exact H]. intros t. unfold prior_residual, rminus, lie_retract, rplus.
  rewrite (rp_exp _ _ _ Hr) by (unfold vscale; rewrite map_length; auto).
  rewrite (rp_mul _ _ _ Hr), (rp_inv _ _ _ Hr), (rp_mul _ _ _ Hr), (rp_log _ _ _ Hr). auto.
Qed.
Lemma raw_between raw p q s da db : planar raw -> sized_pose raw p -> norm2 p = 1 -> sized_pose raw s -> norm2 s = 1 ->
  lg_mul raw p s = q -> length da = lg_dim raw -> length db = lg_dim raw ->
  vderiv (fun t => between_residual raw s (lie_retract raw p (vscale t da)) (lie_retract raw q (vscale t db)))
         (vsub (mvec (lg_adj raw (lg_inv raw (lg_mul raw (lg_inv raw p) q))) da) db).
Proof.
  intros Hp Hl Hn Hl' Hn' <- Ha Hb. destruct (planar_modelled raw Hp) as [(G & L & rep & near & Hr & HL & HP & Hx)].
  destruct (Hx p Hl Hn) as (a & ->). destruct (Hx s Hl' Hn') as (tab & ->). rewrite (rp_dim _ _ _ Hr) in *.
  pose proof (between_joint L near HL HP tab a da db Ha Hb) as H. assert (HG := ll_group L near HL).
  assert (E : lg_adj raw (lg_inv raw (lg_mul raw (lg_inv raw (rep a)) (lg_mul raw (rep a) (rep tab)))) = lg_adj L (lg_inv L tab)).
  { rewrite !(rp_mul _ _ _ Hr), !(rp_inv _ _ _ Hr), !(rp_mul _ _ _ Hr), (rp_inv _ _ _ Hr), (rp_adj _ _ _ Hr).
    rewrite (cancel_l L HG). auto. }
  rewrite E. eapply vderiv_ext; [|exact H]. intros t. unfold between_residual, rminus, lie_retract, rplus.
  rewrite !(rp_exp _ _ _ Hr) by (unfold vscale; rewrite map_length; auto).
  rewrite !(rp_mul _ _ _ Hr), !(rp_inv _ _ _ Hr), !(rp_mul _ _ _ Hr), (rp_inv _ _ _ Hr), (rp_mul _ _ _ Hr), (rp_log _ _ _ Hr). auto.
Qed.

Lemma add_zero_r n (d : list R) : length d = n -> vadd d (vzero n) = d.
Proof. intros <-. unfold vadd, vzero. induction d as [|x d IH]; auto. cbn [zipw length repeat]. f_equal; [rn; ring|exact IH]. Qed.
Lemma add_neg (a b : list R) : vadd a (vneg b) = vsub a b.
Proof. unfold vadd, vneg, vsub. revert b. induction a as [|x a IH]; intros [|y b]; auto. cbn [zipw map]. f_equal. apply IH. Qed.
