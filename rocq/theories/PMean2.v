(* Proofs: the cost of a graph that averages rotations stays below its Gauss-Newton model. *)
From Coq Require Import List Arith Bool Lia Reals Lra.
From Verif Require Import Num NumR Py Arr MLayout MAssign MNoise MSparse MFactor MGraph MLie MPose SpecNoise SpecLayout SpecTree SpecAssign SpecLie SpecGraph SpecSparse SpecDeriv SpecPose SpecZero SpecSpatial SpecTwin SpecInv SpecOrder SpecBook SpecSettle SpecTurn SpecMean.
From Verif Require Import PBase PVec PLayout PAssign PGraph PGraph4 PHold PNoise PGraph2 PDeriv PLie PPose PFrame PZero PJacZero PSpatial PSpatial2 PSpatial3 PSpatial4 PSolverR PDescent PLoss PTwin PTwin2 PLin PBook PStraight PTurn PExTurn PSettle1 PSettle2 PSettle3 PSettle4 PSettle6 PSettle8 PMean1.
Import ListNotations.
Local Open Scope R_scope.

Lemma norm_sum r r' : vnorm r <= vnorm r' -> sumsq r <= sumsq r'.
Proof. intros H. destruct (vnorm_sq r) as (A & B). destruct (vnorm_sq r') as (C & D). nra. Qed.
Lemma so2_angle q : legal_pose raw_so2 q -> exists t, - PI < t <= PI /\ q = [cos t; sin t].
Proof.
  intros (Hl & Hu & _). exact (all_headings q Hl (Hu planar_so2)).
Qed.

(* moving by d shortens the residual at least as much as the linear model says *)
Lemma log_short raw q d : turning raw -> legal_pose raw q -> length d = lg_dim raw ->
  vnorm (lg_log raw (lg_mul raw (lg_inv raw (lg_exp raw d)) q)) <= vnorm (vsub (lg_log raw q) d).
Proof.
  intros Ht Hq Hd. destruct Ht.
  - destruct (so2_angle q Hq) as (t & Hr & ->). destruct d as [|u [|]]; try discriminate. cbn [lg_mul lg_inv lg_exp raw_so2]. unfold so2_exp. cbn [nth].
    rewrite facing_inv, facing_mul, !log_facing. unfold vsub. cbn [zipw]. rewrite (wrap_small t) by auto. replace (- u + t) with (t - u) by ring.
    unfold vnorm. rn. apply sqrt_le_1_alt. rewrite !sumsq_cons. change (sumsq (T := R) []) with 0. pose proof (wrap_le (t - u)). lra.
  - destruct Hq as (Hl & _ & Hu). specialize (Hu spatial_so3). cbn [lg_mul lg_inv lg_exp lg_log lg_dim raw_so3] in *.
    assert (Hlog : length (quat_log q) = 3%nat) by reflexivity.
    rewrite !norm_len by (try reflexivity; rewrite vsub_length; auto; congruence).
    eapply Rle_trans; [|apply (quat_short d (quat_log q) Hd Hlog)].
    assert (N : forall p, norm4 p = 1 -> norm4 (quat_mul (quat_conj (quat_exp d)) p) = 1) by (intros p Hp; rewrite quat_norm, conj_norm, quat_exp_norm, Hp; ring).
    rewrite !quat_angle by (try reflexivity; apply N; auto; apply quat_exp_norm). apply Req_le. do 2 f_equal.
    destruct (quat_exp_log q Hl Hu) as [->| ->]; auto. rewrite <- Rabs_Ropp. f_equal. destruct q as [|q0 [|q1 [|q2 [|q3 [|]]]]]; try discriminate. unfold quat_mul. cbn [nth map]. ring.
Qed.

Lemma prior_short raw mu x d : turning raw -> legal_pose raw mu -> legal_pose raw x -> length d = lg_dim raw ->
  sumsq (prior_residual raw mu (lie_retract raw x d)) <= sumsq (vsub (prior_residual raw mu x) d).
Proof.
  intros Ht Hm Hx Hd. apply norm_sum. unfold prior_residual, rminus, lie_retract, rplus. rewrite (inv_of_mul raw (turning_known raw Ht)) by (try apply Hx; apply (legal_exp raw Ht)).
  rewrite (assoc_so raw Ht). apply log_short; auto. apply (legal_mul raw Ht); auto. apply (legal_inv raw Ht); auto.
Qed.
Lemma between_short s a b da db : legal_pose raw_so2 s -> legal_pose raw_so2 a -> legal_pose raw_so2 b -> length da = 1%nat -> length db = 1%nat ->
  sumsq (between_residual raw_so2 s (lie_retract raw_so2 a da) (lie_retract raw_so2 b db)) <= sumsq (vadd (between_residual raw_so2 s a b) (vsub (mvec [[1]] da) db)).
Proof.
  intros Hs Ha Hb La Lb. destruct (so2_angle s Hs) as (t & _ & ->). destruct (so2_angle a Ha) as (x & _ & ->). destruct (so2_angle b Hb) as (y & _ & ->).
  destruct da as [|u [|]]; try discriminate. destruct db as [|w [|]]; try discriminate.
  unfold between_residual, rminus, lie_retract, rplus. cbn [lg_mul lg_inv lg_exp raw_so2]. unfold so2_exp. cbn [nth].
  repeat (rewrite facing_inv || rewrite facing_mul). rewrite !log_facing. unfold vadd, vsub, mvec. cbn [zipw map]. rewrite vdot_cons, vdot_nil_l.
  rewrite !sumsq_cons. change (sumsq (T := R) []) with 0. rn.
  replace (wrap (- (- (x + u) + (y + w)) + t)) with (wrap (wrap (- (- x + y) + t) + (1 * u + 0 - w))).
  - pose proof (wrap_le (wrap (- (- x + y) + t) + (1 * u + 0 - w))). lra.
  - unfold wrap at 2. set (k := Int_part _). replace (- (- x + y) + t + 2 * PI * IZR k + (1 * u + 0 - w)) with (- (- (x + u) + (y + w)) + t + 2 * PI * IZR k) by ring.
    destruct (cos_turns (- (- (x + u) + (y + w)) + t) k). apply wrap_ext; auto.
Qed.

Section Graph.
Variable groups : vty -> lie_ops R (list R).
Variable fs : list (factor R).
Hypothesis Hav : averaging groups fs.
Let E := pose_env groups.
Notation J f val xi := (pushed (residual_dim f) (f_vars f) (jacobians_at E val f) xi).

Lemma av_factor f : In f fs -> pose_factor groups f.
Proof. intros Hf. destruct (proj2 Hav f Hf) as (s & H & _). auto. Qed.
Lemma av_turning v : In v (mentioned fs) -> turning (groups (v_ty v)).
Proof.
  intros Hv. apply mentioned_in in Hv. destruct Hv as (f & Hf & Hv). destruct (proj2 Hav f Hf) as (s & _ & _ & _ & H). destruct (H v Hv) as [->|(-> & _)]; constructor.
Qed.
Lemma av_known v : In v (mentioned fs) -> PPose.known groups (v_ty v).
Proof. intros Hv. apply turning_known, av_turning; auto. Qed.
Lemma av_posed : well_posed E fs.
Proof. apply pose_posed; [apply av_factor | apply av_known | apply Hav]. Qed.
Lemma av_legal val : rotations groups fs val -> forall v, In v (mentioned fs) -> value_ok (e_cls E (v_ty v)) (val v).
Proof. intros H v Hv. destruct (H v Hv) as (p & -> & Hp). apply pose_value_ok. exists p. split; auto. apply Hp. Qed.
Lemma av_moved val xi val' : rotations groups fs val -> moved E fs val xi val' -> forall v, In v (mentioned fs) -> val' v = group_value (v_ty v) (lie_retract (groups (v_ty v)) (params (val v)) (xi v)).
Proof. intros Hr Hm v Hv. specialize (Hm v Hv). cbn -[group_value params lie_retract] in Hm. injection Hm as Hm. auto. Qed.
Lemma av_rotations val xi val' : rotations groups fs val -> moved E fs val xi val' -> rotations groups fs val'.
Proof.
  intros Hr Hm v Hv. destruct (Hr v Hv) as (p & Ep & Hp). pose proof (av_turning v Hv) as Ht. eexists. split; [apply (av_moved val xi val' Hr Hm v Hv)|]. rewrite Ep, params_value.
  unfold lie_retract, rplus. apply (legal_mul _ Ht); auto. apply (legal_exp _ Ht).
Qed.

Lemma factor_short f val xi val' : In f fs -> rotations groups fs val -> tangent E fs xi -> moved E fs val xi val' ->
  sumsq (residual_at E val' f) <= sumsq (vadd (residual_at E val f) (J f val xi)).
Proof.
  intros Hf Hr Hx Hm. destruct (proj2 Hav f Hf) as (s & Hpf & Hu & _ & Hg).
  assert (Hb : forall v, In v (f_vars f) -> length (xi v) = lg_dim (groups (v_ty v))) by (intros v Hv; apply Hx; eapply in_mentioned; eauto).
  assert (Hv : forall v, In v (f_vars f) -> legal_pose (groups (v_ty v)) (params (val v)) /\ val' v = group_value (v_ty v) (lie_retract (groups (v_ty v)) (params (val v)) (xi v)) /\ turning (groups (v_ty v))).
  { intros v Hv. assert (Hin : In v (mentioned fs)) by (eapply in_mentioned; eauto). destruct (Hr v Hin) as (p & Ep & Hp). split; [rewrite Ep, params_value; auto|]. split; [apply av_moved; auto | apply av_turning; auto]. }
  revert Hu Hg Hb Hv. clear Hf. destruct Hpf as [v mu n Hmu Hno Hd|va vb Tab n h Hbt Htab Hno Hd]; intros Hu Hg Hb Hv.
  - destruct (Hv v (or_introl eq_refl)) as (Lv & Ev & Tv). specialize (Hb v (or_introl eq_refl)).
    assert (Um : unit_pose (groups (v_ty v)) (params mu)) by (apply (Hu v mu); cbn; auto).
    assert (Lm : legal_pose (groups (v_ty v)) (params mu)) by (split; auto; destruct Hmu as (p & -> & Hp); rewrite params_value; auto).
    unfold residual_at, jacobians_at, residual_dim, pushed. cbn [prior_make f_vars f_noise f_cls f_params map]. rewrite Hd, Ev.
    change (sumsq (prior_residual (groups (v_ty v)) (params mu) (params (group_value (v_ty v) (lie_retract (groups (v_ty v)) (params (val v)) (xi v))))) <=
      sumsq (vadd (prior_residual (groups (v_ty v)) (params mu) (params (val v))) (vadd (mvec (neg_eye (lg_dim (groups (v_ty v)))) (xi v)) (vzero (lg_dim (groups (v_ty v))))))).
    rewrite params_value, add_zero_r by (rewrite neg_eye_mvec, vneg_length; auto). rewrite neg_eye_mvec by auto. rewrite add_neg. apply prior_short; auto.
  - pose proof (between_inv va vb Tab n h Hbt) as (Ht & ->).
    destruct (Hv va (or_introl eq_refl)) as (La & Ea & Ta). destruct (Hv vb (or_intror (or_introl eq_refl))) as (Lb & Eb & Tb).
    pose proof (Hb va (or_introl eq_refl)) as Ba. pose proof (Hb vb (or_intror (or_introl eq_refl))) as Bb.
    assert (Ut : unit_pose (groups (v_ty va)) (params Tab)) by (apply (Hu va Tab); cbn; auto).
    assert (Lt : legal_pose (groups (v_ty va)) (params Tab)) by (split; auto; destruct Htab as (p & -> & Hp); rewrite params_value; auto).
    assert (G : groups (v_ty va) = raw_so2) by (destruct (Hg va (or_introl eq_refl)) as [|(_ & Hc)]; [auto | discriminate]).
    unfold residual_at, jacobians_at, residual_dim, pushed. cbn [f_vars f_noise f_cls f_params map]. rewrite Hd, Ea, Eb.
    change (sumsq (between_residual (groups (v_ty va)) (params Tab) (params (group_value (v_ty va) (lie_retract (groups (v_ty va)) (params (val va)) (xi va)))) (params (group_value (v_ty vb) (lie_retract (groups (v_ty vb)) (params (val vb)) (xi vb))))) <=
      sumsq (vadd (between_residual (groups (v_ty va)) (params Tab) (params (val va)) (params (val vb)))
        (vadd (mvec (lg_adj (groups (v_ty va)) (lg_inv (groups (v_ty va)) (lg_mul (groups (v_ty va)) (lg_inv (groups (v_ty va)) (params (val va))) (params (val vb))))) (xi va))
        (vadd (mvec (neg_eye (lg_dim (groups (v_ty va)))) (xi vb)) (vzero (lg_dim (groups (v_ty va)))))))).
    rewrite <- Ht in Bb, Lb |- *. rewrite neg_eye_mvec by auto. rewrite add_zero_r by (rewrite vneg_length; auto). rewrite add_neg, !params_value.
    rewrite G in *. apply between_short; auto.
Qed.

(* isotropic noise multiplies *)
Lemma scaled_cost f s val : In f fs -> averages groups f s -> rotations groups fs val -> whitened_at E val f = Ok (vscale s (residual_at E val f)).
Proof.
  intros Hf (_ & _ & (_ & _ & Hd & Hs) & _) Hr. unfold whitened_at. apply Hs. apply (ws_residual E fs (pose_shaped groups fs av_factor av_known)); auto. apply av_legal; auto.
Qed.
Lemma scaled_push f s val xi : In f fs -> averages groups f s -> rotations groups fs val -> tangent E fs xi ->
  exists Ws, whitened_jacobians_at E val f (vscale s (residual_at E val f)) = Ok Ws /\ pushed (residual_dim f) (f_vars f) Ws xi = vscale s (J f val xi).
Proof.
  intros Hf (_ & _ & (Ln & On & Hd & Hs) & _) Hr Hx. pose proof (pose_shaped groups fs av_factor av_known) as Hws. pose proof (av_legal val Hr) as Hl.
  destruct (pushed_white E (f_noise f) (vscale s (residual_at E val f)) (f_vars f) xi (jacobians_at E val f) On) as (Ws & EW & HP).
  - rewrite vscale_length. apply (ws_residual E fs Hws); auto.
  - apply (ws_jacobian E fs Hws val f Hl Hf).
  - intros v Hv. apply Hx. eapply in_mentioned; eauto.
  - exists Ws. split; [exact EW|]. change (residual_dim f) with (noise_dim (f_noise f)). rewrite HP. destruct (base_of (f_noise f) Ln) as (-> & ->). rewrite vscale_one.
    unfold wl. rewrite Hs; auto. apply (pushed_len E). apply (ws_jacobian E fs Hws val f Hl Hf).
Qed.
Lemma mean_below val xi val' : rotations groups fs val -> tangent E fs xi -> moved E fs val xi val' -> cost_at E fs val' <= model E fs val val xi.
Proof.
  intros Hr Hx Hm. pose proof (av_rotations val xi val' Hr Hm) as Hr'. unfold cost_at, model. apply vsum_mono. intros f Hf. destruct (proj2 Hav f Hf) as (s & Hs).
  rewrite (scaled_cost f s val' Hf Hs Hr'). unfold model_at. rewrite (scaled_cost f s val Hf Hs Hr). destruct (scaled_push f s val xi Hf Hs Hr Hx) as (Ws & -> & ->).
  rewrite <- vscale_vadd, !sumsq_scale. apply Rmult_le_compat_l; [apply Rle_0_sqr|]. rewrite PLin.vadd_comm. apply factor_short; auto.
Qed.
End Graph.
