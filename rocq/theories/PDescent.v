(* Sufficient decrease of the trust-region solvers. *)
From Coq Require Import List Arith Bool ZArith Lia Reals Lra Psatz Permutation.
From Verif Require Import Num NumR Py Arr MLayout MAssign MNoise MSparse MFactor MGraph MLinear MSolver SpecLayout SpecTree SpecAssign SpecGraph SpecSparse SpecSolver SpecOrder SpecInv SpecDescent.
From Verif Require Import PBase PLayout PAssign PAssign2 PGraph PGraph2 PGraph4 PExGraph PVec PSparse PLinear PGraph5 PSolver PSolver2 PSolverR PJac PHold PInv POrder POrder2.
Import ListNotations.
Local Open Scope R_scope.

Ltac rnin H := cbn [nadd nsub nmul ndiv nneg n0 n1 nlit nsqrt nabs nmax nmin nltb nleb NumR] in H.

(* ---- vectors ---- *)
Lemma cauchy_schwarz (a b : list R) : length a = length b -> vdot a b * vdot a b <= sumsq a * sumsq b.
Proof.
  intros Hl. pose proof (sumsq_nonneg a) as Ha. pose proof (sumsq_nonneg b) as Hb.
  destruct (Req_dec (sumsq b) 0) as [Hz|Hz].
  - assert (E : vdot a b = 0) by (apply sumsq_zero in Hz; rewrite Hz; apply vdot_zero_r). rewrite E, Hz. lra.
  - set (t := vdot a b / sumsq b).
    pose proof (sumsq_nonneg (vsub a (vscale t b))) as H. rewrite sumsq_sub in H by (rewrite vscale_length; auto).
    rewrite vdot_scale_r, sumsq_scale in H. assert (Et : t * sumsq b = vdot a b) by (unfold t; field; auto).
    assert (H1 : 0 <= (sumsq a - 2 * (t * vdot a b) + t * t * sumsq b) * sumsq b) by (apply Rmult_le_pos; auto).
    replace ((sumsq a - 2 * (t * vdot a b) + t * t * sumsq b) * sumsq b) with (sumsq a * sumsq b - 2 * (t * sumsq b) * vdot a b + (t * sumsq b) * (t * sumsq b)) in H1 by ring.
    rewrite Et in H1. lra.
Qed.
Lemma dot_le_norms (a b : list R) : length a = length b -> vdot a b <= vnorm a * vnorm b.
Proof.
  intros Hl. destruct (vnorm_sq a) as (A0 & A1). destruct (vnorm_sq b) as (B0 & B1). pose proof (cauchy_schwarz a b Hl) as H.
  rewrite <- A1, <- B1 in H. assert (0 <= vnorm a * vnorm b) by (apply Rmult_le_pos; auto). nra.
Qed.
Lemma norm_triangle (a b : list R) : length a = length b -> sumsq (vadd a b) <= (vnorm a + vnorm b) * (vnorm a + vnorm b).
Proof.
  intros Hl. rewrite sumsq_add by auto. destruct (vnorm_sq a) as (A0 & A1). destruct (vnorm_sq b) as (B0 & B1).
  pose proof (dot_le_norms a b Hl). rewrite <- A1, <- B1. lra.
Qed.

(* ---- the quadratic model ---- *)
Lemma norm_mapply (A : coo R) F x : coo_ok A -> norm_le F A -> length x = snd (m_shape A) -> sumsq (mapply A x) <= F * sumsq x.
Proof. intros HA HF Hx. apply HF. apply matmul_mapply; auto. Qed.

Section Model.
Variable A : coo R.
Variable rhs : list R.
Variable F : R.
Hypothesis HA : coo_ok A.
Hypothesis Hr : length rhs = fst (m_shape A).
Hypothesis HF0 : 0 <= F.
Let n := snd (m_shape A).
Let g := mapply (transpose A) rhs.
Hypothesis HF : sumsq (mapply A g) <= F * sumsq g.

Lemma g_length : length g = n. Proof. apply mapply_length. Qed.
Lemma model_change d : length d = n -> sumsq (vsub (mapply A d) rhs) = sumsq rhs - (2 * vdot d g - sumsq (mapply A d)).
Proof. intros Hd. rewrite sumsq_sub by (rewrite mapply_length; auto). rewrite mapply_adjoint by auto. fold g. lra. Qed.

Lemma damped_lower beta d : 0 < beta -> normal_ok A beta g d ->
  vdot d g = sumsq (mapply A d) + beta * sumsq d /\ sumsq g / (F + beta) <= sumsq (mapply A d) + beta * sumsq d.
Proof.
  intros Hb Hn. pose proof Hn as (Hd & _). pose proof g_length as Hg. fold n in Hd.
  assert (Hw := proj1 (normal_weak A beta HA g d Hg Hd) Hn).
  assert (H0 : sumsq (mapply A d) + beta * sumsq d = vdot d g) by (rewrite !sumsq_dot; apply Hw; auto).
  split; auto.
  set (t := / (F + beta)). assert (Hfb : 0 < F + beta) by lra. assert (Ht : 0 < t) by (apply Rinv_0_lt_compat; auto).
  assert (Htf : t * (F + beta) = 1) by (unfold t; field; lra).
  pose proof (sumsq_nonneg (vsub (vscale t (mapply A g)) (mapply A d))) as H1. pose proof (sumsq_nonneg (vsub (vscale t g) d)) as H2.
  rewrite sumsq_sub in H1 by (rewrite vscale_length, !mapply_length; auto). rewrite sumsq_sub in H2 by (rewrite vscale_length; lia).
  rewrite sumsq_scale, vdot_scale_l in H1, H2. pose proof (Hw g Hg) as Hgg. rewrite <- (sumsq_dot g) in Hgg.
  pose proof HF as HF1. pose proof (sumsq_nonneg g) as Hg0.
  assert (H3 : 0 <= beta * (t * t * sumsq g - 2 * (t * vdot g d) + sumsq d)) by (apply Rmult_le_pos; lra).
  assert (H4 : t * t * sumsq (mapply A g) <= t * t * (F * sumsq g)) by (apply Rmult_le_compat_l; [apply Rle_0_sqr | auto]).
  assert (H5 : t * t * (F * sumsq g) + beta * (t * t * sumsq g) = t * sumsq g).
  { replace (t * t * (F * sumsq g) + beta * (t * t * sumsq g)) with (t * (t * (F + beta)) * sumsq g) by ring. rewrite Htf. ring. }
  unfold Rdiv. fold t. rewrite (Rmult_comm (sumsq g) t).
  assert (H6 : t * (vdot (mapply A g) (mapply A d) + beta * vdot g d) = t * sumsq g) by (f_equal; auto). lra.
Qed.

Lemma dogleg_lower mu gn Asd radius : 0 < mu -> 0 < radius -> normal_ok A mu g gn -> Asd = mapply A g ->
  let d := dogleg_step_of g Asd gn radius in
  length d = n /\ vnorm d <= radius /\ Rmin (radius * vnorm g) (sumsq g / (F + mu)) <= 2 * vdot d g - sumsq (mapply A d).
Proof.
  intros Hmu Hrad Hn -> d. pose proof Hn as (Hgn & _). fold n in Hgn. pose proof g_length as Hg.
  destruct (damped_lower mu gn Hmu Hn) as (Dg & Dl). pose proof (sumsq_nonneg g) as Hg0.
  assert (Hmu' : 0 < F + mu) by lra.
  destruct (Rle_lt_dec (vnorm gn) radius) as [Hc|Hc].
  { assert (Ed : d = gn).
    { subst d. unfold dogleg_step_of. rn. rewrite (proj2 (Rleb_ok _ _) Hc). auto. }
    rewrite Ed. split; auto. split; auto. rewrite Dg. pose proof (Rmin_r (radius * vnorm g) (sumsq g / (F + mu))).
    pose proof (sumsq_nonneg gn). assert (0 <= mu * sumsq gn) by (apply Rmult_le_pos; lra). pose proof (sumsq_nonneg (mapply A gn)). lra. }
  assert (Hnz : g <> vzero n).
  { intros Hz. assert (gn = vzero n). { apply (proj1 (normal_descent A mu rhs gn HA Hmu Hr Hn)). exact Hz. }
    subst gn. rewrite (vnorm_eq _ 0) in Hc; [lra | lra|]. rewrite (proj2 (sumsq_zero (vzero n))); [ring | rewrite vzero_length; auto]. }
  assert (Hgp : 0 < sumsq g) by (rewrite sumsq_dot; apply (dot_pos n); auto).
  destruct (steepest_defined A rhs HA Hr Hnz) as (Hp & _). fold g in Hp.
  destruct (dogleg_step_ok g (mapply A g) gn radius Hrad ltac:(lia) ltac:(left; lra)) as (N1 & _ & _ & C2 & C3).
  fold d in N1, C2, C3. set (p := sumsq (mapply A g)) in *. set (alpha := sumsq g / p) in *. set (a := vscale alpha g) in *.
  assert (Hal : 0 < alpha) by (apply Rdiv_lt_0_compat; auto). assert (Hap : alpha * p = sumsq g) by (unfold alpha; field; lra).
  destruct (vnorm_sq g) as (G0 & G1). assert (G2 : 0 < vnorm g) by nra.
  assert (Na : vnorm a = alpha * vnorm g). { apply vnorm_eq; [apply Rmult_le_pos; lra|]. unfold a. rewrite sumsq_scale, <- G1. ring. }
  assert (Hla : length a = n) by (unfold a; rewrite vscale_length; auto).
  destruct (Rle_lt_dec radius (vnorm a)) as [Hc2|Hc2].
  { specialize (C2 Hc Hc2). rewrite C2 in *.
    assert (Ed : vscale (radius / vnorm a) a = vscale (radius / vnorm g) g).
    { apply (nth_ext' _ _ 0); [unfold a; rewrite !vscale_length; auto|].
      intros i _. rewrite Na. unfold a. rewrite !nth_vscale. field. lra. }
    rewrite Ed in *. split; [rewrite vscale_length; auto|]. split; auto.
    rewrite vdot_scale_l, <- sumsq_dot, mapply_scale, sumsq_scale by auto. fold p.
    set (t := radius / vnorm g). assert (Htg : t * vnorm g = radius) by (unfold t; field; lra).
    assert (Ht : 0 < t) by (apply Rdiv_lt_0_compat; auto).
    assert (Hta : t <= alpha). { apply (Rmult_le_reg_r (vnorm g)); auto. rewrite Htg, <- Na. auto. }
    assert (Htp : t * p <= sumsq g). { rewrite <- Hap. apply Rmult_le_compat_r; lra. }
    assert (Htt : t * (t * p) <= t * sumsq g) by (apply Rmult_le_compat_l; lra).
    assert (Hrg : radius * vnorm g = t * sumsq g) by (rewrite <- Htg, <- G1; ring).
    pose proof (Rmin_l (radius * vnorm g) (sumsq g / (F + mu))). lra. }
  destruct (C3 Hc Hc2) as (bt & Hbt & Ed & _ & _). rewrite Ed in *.
  set (w := vsub gn a) in *. assert (Hlw : length w = n) by (unfold w; rewrite vsub_length; lia).
  split; [rewrite vadd_length; rewrite ?vscale_length; lia|]. split; auto.
  assert (Hw := proj1 (normal_weak A mu HA g gn Hg Hgn) Hn w Hlw).
  rewrite mapply_add, mapply_scale, sumsq_add by (auto; rewrite ?vscale_length, ?mapply_length; auto).
  rewrite vdot_add_l by (rewrite vscale_length; lia). rewrite vdot_scale_l, vdot_scale_r, sumsq_scale.
  assert (Eag : mapply A gn = vadd (mapply A a) (mapply A w)).
  { rewrite <- mapply_add by auto. f_equal. apply (nth_ext' _ _ 0); [rewrite vadd_length; lia|]. intros i Hi.
    rewrite nth_vadd by lia. unfold w. rewrite nth_vsub by lia. lra. }
  rewrite Eag, vdot_add_r in Hw by (rewrite !mapply_length; auto). rewrite <- (sumsq_dot (mapply A w)) in Hw. rewrite (vdot_comm (mapply A w) (mapply A a)) in Hw.
  assert (Hwb : 0 <= vdot w gn).
  { unfold w. rewrite vdot_sub_l by lia. rewrite <- sumsq_dot. pose proof (dot_le_norms a gn ltac:(lia)). destruct (vnorm_sq gn) as (B0 & B1). rewrite <- B1. destruct (vnorm_sq a) as (A0 & _).
    assert (vnorm a * vnorm gn <= vnorm gn * vnorm gn) by (apply Rmult_le_compat_r; lra). lra. }
  assert (Hmw : 0 <= mu * vdot w gn) by (apply Rmult_le_pos; lra).
  assert (Haa : vdot a g = alpha * sumsq g) by (unfold a; rewrite vdot_scale_l, <- sumsq_dot; auto).
  assert (Haq : sumsq (mapply A a) = alpha * sumsq g).
  { unfold a. rewrite mapply_scale by auto. rewrite sumsq_scale. fold p. rewrite <- Hap. ring. }
  rewrite Haa, Haq.
  set (q := sumsq (mapply A w)) in *. assert (Hq : 0 <= q) by apply sumsq_nonneg. set (x := vdot (mapply A a) (mapply A w)) in *.
  assert (Hbb : bt * bt * q <= bt * q). { assert (bt * bt <= bt * 1) by (apply Rmult_le_compat_l; lra). apply Rmult_le_compat_r; lra. }
  assert (E1 : bt * vdot w g = bt * x + bt * q + bt * (mu * vdot w gn)) by (rewrite <- Hw; ring).
  assert (E2 : 0 <= bt * (mu * vdot w gn)) by (apply Rmult_le_pos; lra). assert (E3 : 0 <= bt * q) by (apply Rmult_le_pos; lra).
  assert (E4 : sumsq g / (F + mu) <= alpha * sumsq g).
  { unfold Rdiv. rewrite Rmult_comm. apply Rmult_le_compat_r; auto. pose proof HF as HF1. fold p in HF1.
    apply (Rmult_le_reg_r ((F + mu) * p)); [apply Rmult_lt_0_compat; auto|]. replace (/ (F + mu) * ((F + mu) * p)) with p by (field; lra).
    replace (alpha * ((F + mu) * p)) with ((F + mu) * sumsq g) by (rewrite <- Hap; ring). assert (0 <= mu * sumsq g) by (apply Rmult_le_pos; lra). lra. }
  pose proof (Rmin_r (radius * vnorm g) (sumsq g / (F + mu))). lra.
Qed.
End Model.

(* ---- from the model to the cost ---- *)
Lemma gain qmin q c0 c m : 0 < qmin -> q = (c - c0) / (m - c0) -> qmin <= q -> m <= c0 -> qmin * (c0 - m) <= c0 - c.
Proof.
  intros Hq -> Hle Hm. destruct (Req_dec (m - c0) 0) as [Hz|Hz].
  - rewrite Hz in Hle. unfold Rdiv in Hle. rewrite Rinv_0, Rmult_0_r in Hle. lra.
  - assert (Hlt : 0 < c0 - m) by lra. apply (Rmult_le_compat_r (c0 - m)) in Hle; [|lra].
    replace ((c - c0) / (m - c0) * (c0 - m)) with (c0 - c) in Hle by (field; lra). auto.
Qed.
Lemma gain_back qmin c0 c m : m < c0 -> qmin * (c0 - m) <= c0 - c -> qmin <= (c - c0) / (m - c0).
Proof.
  intros Hm H. apply (Rmult_le_reg_r (c0 - m)); [lra|]. replace ((c - c0) / (m - c0) * (c0 - m)) with (c0 - c) by (field; lra). auto.
Qed.

Section State.
Variable E : env R.
Let C := e_cls E.
Variable fs : list (factor R).
Variable g : graph R.
Hypothesis CO : classes_ok C.
Hypothesis Hok : forall f, In f fs -> factor_ok f.
Hypothesis Hm : graph_make E fs = Ok g.
Hypothesis Hws : well_shaped E fs.
Hypothesis Hrd : total residual_dim fs <> 0%nat.

Definition ready (s : sstate R) : Prop := good E fs (fun _ _ => True) (s_assign s) /\ current E g s.

Lemma ready_at s A : ready s -> compute_whitened_residual_jacobian E g (s_assign s) (s_res s) = Ok A ->
  coo_ok A /\ length (vneg (s_res s)) = fst (m_shape A) /\ s_cost s = sumsq (vneg (s_res s)) /\ snd (m_shape A) = l_dim (g_local_layout g) /\
  length (s_res s) = fst (m_shape A).
Proof.
  intros ((val & Hh & _) & Hc) EA. destruct (made E fs g Hok Hm) as (Hg & Hne).
  pose proof (holds_assigns E fs (s_assign s) val Hh) as Ha. pose proof (holds_legal E fs CO (s_assign s) val Hh) as Hl.
  destruct (one_cost E fs g Hok Hg (s_assign s) val Ha) as (Hw & Hcost); auto. { intros f Hf. apply (ws_residual E fs Hws); auto. }
  set (w := fun f => unwrap [] (whitened_at E val f)) in *. unfold current in Hc. rewrite Hcost in Hc. injection Hc as Hc1 Hc2.
  assert (Hlen : length (s_res s) = total residual_dim fs) by (rewrite <- Hc2; apply rvec_length; auto).
  destruct (jacobian_action E fs g (s_assign s) (s_res s) val Hok) as (A' & EA' & HA & Hsh & _); auto.
  { intros f Hf. apply (ws_jacobian E fs Hws); auto. }
  assert (A' = A) by congruence. subst A'. rewrite Hsh, vneg_length, sumsq_neg. cbn [fst snd]. rewrite (ig_local _ _ _ Hg).
  split; auto. split; auto. split; [|split; auto]. rewrite <- Hc1, <- Hc2. auto.
Qed.
Lemma ready_next lin step qmin s s' A d prop c r q : trust_body E lin step qmin -> ready s -> step g s = Ok s' ->
  trust_step E g qmin s s' A d prop c r q -> qmin <= q -> ready s'.
Proof.
  intros Hb (Hgd & Hc) H Ht Hq. destruct (made E fs g Hok Hm) as (Hg & _). split.
  - apply (good_trust E CO fs g Hg _ (ws_preserved E fs Hws) lin step qmin s s' Hb Hgd H).
  - destruct Ht as [_ _ Hcost _ Ha _ Hr _]. destruct (Ha (proj2 (Rleb_ok _ _) Hq)) as (E1 & E2). unfold current. rewrite E1, E2, Hr. auto.
Qed.

(* a second account of the same iteration cannot call it accepted if it was rejected *)
Lemma really_accepted qmin s s' A d prop c r q A' d' prop' c' r' q' : 0 < qmin ->
  trust_step E g qmin s s' A d prop c r q -> qmin <= q -> trust_step E g qmin s s' A' d' prop' c' r' q' -> A' = A /\ qmin <= q'.
Proof.
  intros Hq Ht Hle Ht'. split; [pose proof (tr_A _ _ _ _ _ _ _ _ _ _ _ Ht); pose proof (tr_A _ _ _ _ _ _ _ _ _ _ _ Ht'); congruence|].
  destruct (Rle_lt_dec qmin q') as [|Hlt]; auto. exfalso.
  destruct Ht as [_ _ _ (Ad & _ & Eq) Ha _ _ _]. destruct Ht' as [_ _ _ _ _ Hr _ _].
  destruct (Ha (proj2 (Rleb_ok _ _) Hle)) as (_ & E1). destruct (Hr (proj2 (Rleb_no _ _) Hlt)) as (_ & E2).
  rewrite <- E1, E2 in Eq. rnin Eq. unfold Rminus in Eq. rewrite Rplus_opp_r in Eq. unfold Rdiv in Eq. rewrite Rmult_0_l in Eq. lra.
Qed.

Lemma lm_gain cfg F s s' A d prop c r q ng : 0 < lm_quality_min cfg -> 0 <= F -> norm_le F A -> ready s -> 0 < s_extra s + Rlit 1 100000 ->
  lm_step E cfg cholmod_solve g s = Ok s' -> trust_step E g (lm_quality_min cfg) s s' A d prop c r q -> lm_quality_min cfg <= q ->
  matmul (transpose A) (vneg (s_res s)) = Ok ng ->
  lm_quality_min cfg * (sumsq ng / (F + (s_extra s + Rlit 1 100000))) <= s_cost s - s_cost s'.
Proof.
  intros Hq HF0 HF Hs Hl H Ht Hle Eng. destruct (lm_tr E _ _ _ _ _ H) as (A1 & ATb & d1 & prop1 & c1 & r1 & q1 & Ht1 & Eb & Ed & _).
  destruct (really_accepted _ _ _ _ _ _ _ _ _ _ _ _ _ _ _ Hq Ht Hle Ht1) as (-> & Hle1). assert (ATb = ng) by congruence. subst ATb. clear Ht Hle d prop c r q.
  destruct (ready_at s A Hs (tr_A _ _ _ _ _ _ _ _ _ _ _ Ht1)) as (HA & Hlr & Hc & _ & Hlr').
  rewrite matmul_mapply in Eng by (try apply transpose_ok; auto). injection Eng as <-.
  assert (HlATb : length (mapply (transpose A) (vneg (s_res s))) = snd (m_shape A)) by apply mapply_length.
  destruct (cholmod_solve_ok A _ (s_extra s) (s_iter s) HA Hl HlATb) as (x & Ex & Hx). rewrite Ed in Ex. injection Ex as <-.
  destruct (damped_lower A (vneg (s_res s)) F HA Hlr HF0 (norm_mapply A F _ HA HF HlATb) _ d1 Hl Hx) as (D1 & D2).
  pose proof Ht1 as [_ _ _ (Ad & EA & Eq) Ha _ _ _]. destruct (Ha (proj2 (Rleb_ok _ _) Hle1)) as (_ & E2).
  rewrite matmul_mapply in EA by (auto; apply Hx). injection EA as <-. rnin Eq.
  pose proof (model_change A (vneg (s_res s)) HA Hlr d1 (proj1 Hx)) as Hmc.
  rewrite vsub_neg_add in Hmc by (rewrite mapply_length; auto). rewrite <- Hc in Hmc.
  set (be := s_extra s + Rlit 1 100000) in *.
  pose proof (sumsq_nonneg (mapply A d1)) as P1. pose proof (sumsq_nonneg d1) as P2. assert (P3 : 0 <= be * sumsq d1) by (apply Rmult_le_pos; lra).
  pose proof (gain _ _ _ _ _ Hq Eq Hle1 ltac:(lra)) as G. rewrite E2.
  eapply Rle_trans; [|exact G]. apply Rmult_le_compat_l; [lra|]. lra.
Qed.

Lemma dl_gain cfg F s s' A d prop c r q ng : 0 < dl_quality_min cfg -> 0 <= F -> norm_le F A -> ready s -> 0 < s_extra s ->
  dl_step E cfg cholmod_solve g s = Ok s' -> trust_step E g (dl_quality_min cfg) s s' A d prop c r q -> dl_quality_min cfg <= q ->
  matmul (transpose A) (vneg (s_res s)) = Ok ng ->
  dl_quality_min cfg * Rmin (s_extra s * vnorm ng) (sumsq ng / (F + Rlit 1 100000)) <= s_cost s - s_cost s'.
Proof.
  intros Hq HF0 HF Hs Hl H Ht Hle Eng. destruct (dl_tr E _ _ _ _ _ H) as (A1 & ATb & gn & Asd & d1 & prop1 & c1 & r1 & q1 & Ht1 & Eb & Egn & Easd & Ed & _).
  destruct (really_accepted _ _ _ _ _ _ _ _ _ _ _ _ _ _ _ Hq Ht Hle Ht1) as (-> & Hle1). assert (ATb = ng) by congruence. subst ATb. clear Ht Hle d prop c r q.
  destruct (ready_at s A Hs (tr_A _ _ _ _ _ _ _ _ _ _ _ Ht1)) as (HA & Hlr & Hc & _ & Hlr').
  rewrite matmul_mapply in Eng by (try apply transpose_ok; auto). injection Eng as <-.
  assert (HlATb : length (mapply (transpose A) (vneg (s_res s))) = snd (m_shape A)) by apply mapply_length.
  rewrite matmul_mapply in Easd by auto. injection Easd as <-.
  assert (Hmu : 0 < n0 + Rlit 1 100000) by (unfold Rlit; rn; lra).
  destruct (cholmod_solve_ok A _ n0 (s_iter s) HA Hmu HlATb) as (x & Ex & Hx). rewrite Egn in Ex. injection Ex as <-.
  replace (n0 + Rlit 1 100000) with (Rlit 1 100000) in * by (rn; lra).
  destruct (dogleg_lower A (vneg (s_res s)) F HA Hlr HF0 (norm_mapply A F _ HA HF HlATb) (Rlit 1 100000) gn _ (s_extra s) Hmu Hl Hx eq_refl) as (D0 & D1 & D2). rewrite <- Ed in D0, D1, D2.
  pose proof Ht1 as [_ _ _ (Ad & EA & Eq) Ha _ _ _]. destruct (Ha (proj2 (Rleb_ok _ _) Hle1)) as (_ & E2).
  rewrite matmul_mapply in EA by auto. injection EA as <-. rnin Eq.
  pose proof (model_change A (vneg (s_res s)) HA Hlr d1 D0) as Hmc.
  rewrite vsub_neg_add in Hmc by (rewrite mapply_length; auto). rewrite <- Hc in Hmc.
  assert (P : 0 <= Rmin (s_extra s * vnorm (mapply (transpose A) (vneg (s_res s)))) (sumsq (mapply (transpose A) (vneg (s_res s))) / (F + Rlit 1 100000))).
  { apply Rmin_glb; [apply Rmult_le_pos; [lra | apply vnorm_sq] | apply Rmult_le_pos; [apply sumsq_nonneg | apply Rlt_le, Rinv_0_lt_compat; lra]]. }
  pose proof (gain _ _ _ _ _ Hq Eq Hle1 ltac:(lra)) as G. rewrite E2.
  eapply Rle_trans; [|exact G]. apply Rmult_le_compat_l; [lra|]. lra.
Qed.

Lemma ready_cost s : ready s -> 0 <= s_cost s.
Proof.
  intros (_ & Hc). unfold current, compute_cost in Hc. apply bind_ok in Hc. destruct Hc as (r & _ & Hc). injection Hc as <- _. apply sumsq_nonneg.
Qed.

Lemma lm_total cfg F l s s' : 0 < lm_quality_min cfg -> 0 < lambda_factor cfg -> 0 <= F -> ready s -> 0 < s_extra s ->
  accepted E g (lm_step E cfg cholmod_solve) (lm_quality_min cfg) l s s' -> (forall A ng x, In (A, ng, x) l -> norm_le F A) ->
  lm_quality_min cfg * vsum (map (fun v => sumsq (snd (fst v)) / (F + (snd v + Rlit 1 100000))) l) <= s_cost s - s_cost s' /\ 0 <= s_cost s'.
Proof.
  intros Hq Hfac HF0 Hs Hl Hacc. revert Hs Hl. induction Hacc as [s | s s' s'' A d prop c r q ng l H Ht Hle Eng Hacc IH]; intros Hs Hl HF.
  { cbn [map]. rewrite vsum_nil. pose proof (ready_cost s Hs). lra. }
  cbn [map fst snd]. rewrite vsum_cons.
  assert (Hs' : ready s') by (eapply ready_next; [apply trust_lm | eauto..]).
  assert (Hl' : 0 < s_extra s').
  { destruct (lm_tr E _ _ _ _ _ H) as (A1 & ATb & d1 & prop1 & c1 & r1 & q1 & Ht1 & _ & _ & Ee & _).
    destruct (really_accepted _ _ _ _ _ _ _ _ _ _ _ _ _ _ _ Hq Ht Hle Ht1) as (_ & Hle1). rnin Ee. rewrite (proj2 (Rleb_ok _ _) Hle1) in Ee.
    rewrite Ee. cbn. apply Rdiv_lt_0_compat; auto. }
  assert (HA : norm_le F A) by (eapply HF; left; reflexivity).
  assert (Hl2 : 0 < s_extra s + Rlit 1 100000) by (unfold Rlit; lra).
  pose proof (lm_gain cfg F s s' A d prop c r q ng Hq HF0 HA Hs Hl2 H Ht Hle Eng) as G.
  destruct (IH Hs' Hl') as (G1 & G2); [intros; eapply HF; right; eauto|]. split; auto. lra.
Qed.
Lemma dl_total cfg F l s s' : 0 < dl_quality_min cfg -> 0 <= F -> ready s -> 0 < s_extra s ->
  accepted E g (dl_step E cfg cholmod_solve) (dl_quality_min cfg) l s s' -> (forall A ng x, In (A, ng, x) l -> norm_le F A) ->
  dl_quality_min cfg * vsum (map (fun v => Rmin (snd v * vnorm (snd (fst v))) (sumsq (snd (fst v)) / (F + Rlit 1 100000))) l) <= s_cost s - s_cost s' /\ 0 <= s_cost s'.
Proof.
  intros Hq HF0 Hs Hl Hacc. revert Hs Hl. induction Hacc as [s | s s' s'' A d prop c r q ng l H Ht Hle Eng Hacc IH]; intros Hs Hl HF.
  { cbn [map]. rewrite vsum_nil. pose proof (ready_cost s Hs). lra. }
  cbn [map fst snd]. rewrite vsum_cons.
  assert (Hs' : ready s') by (eapply ready_next; [apply trust_dl | eauto..]).
  assert (Hl' : 0 < s_extra s').
  { destruct (dl_tr E _ _ _ _ _ H) as (A1 & ATb & gn & Asd & d1 & prop1 & c1 & r1 & q1 & Ht1 & _ & _ & _ & _ & Ee & _).
    rewrite Ee. apply (dogleg_radius_ok (s_extra s) q1 d1 Hl). }
  assert (HA : norm_le F A) by (eapply HF; left; reflexivity).
  pose proof (dl_gain cfg F s s' A d prop c r q ng Hq HF0 HA Hs Hl H Ht Hle Eng) as G.
  destruct (IH Hs' Hl') as (G1 & G2); [intros; eapply HF; right; eauto|]. split; auto. lra.
Qed.

(* ---- when a step is accepted ---- *)
Lemma prop_cost s A d prop c r : ready s -> compute_whitened_residual_jacobian E g (s_assign s) (s_res s) = Ok A -> length d = snd (m_shape A) ->
  manifold_retract C (s_assign s) (mkAssign d (g_local_layout g)) = Ok prop -> compute_cost E g prop = Ok (c, r) -> length r = fst (m_shape A) /\ c = sumsq r.
Proof.
  intros Hs EA Hd Hp Hc. destruct (ready_at s A Hs EA) as (HA & Hlr & _ & Hsnd & Hlr'). destruct Hs as (Hgd & Hcur). destruct (made E fs g Hok Hm) as (Hg & Hne).
  assert (Hgp : good E fs (fun _ _ => True) prop).
  { apply (good_retract E CO fs g Hg _ (ws_preserved E fs Hws) (s_assign s) d prop Hgd); auto. rewrite <- (ig_local _ _ _ Hg). lia. }
  assert (Hlen : forall a c r, good E fs (fun _ _ => True) a -> compute_cost E g a = Ok (c, r) -> length r = total residual_dim fs /\ c = sumsq r).
  { intros a c1 r1 (val & Hh & _) H1. pose proof (holds_legal E fs CO a val Hh) as Hl.
    destruct (one_cost E fs g Hok Hg a val (holds_assigns E fs a val Hh)) as (Hw & Hcost); auto. { intros f Hf. apply (ws_residual E fs Hws); auto. }
    rewrite Hcost in H1. injection H1 as <- <-. split; auto. apply rvec_length; auto. }
  destruct (Hlen prop c r Hgp Hc) as (H1 & H2). destruct (Hlen (s_assign s) _ _ Hgd Hcur) as (H3 & _). split; auto. lia.
Qed.

(* cost after the step, from the curvature *)
Lemma curvature_cost s A K d Ad prop c r : ready s -> compute_whitened_residual_jacobian E g (s_assign s) (s_res s) = Ok A -> length d = snd (m_shape A) ->
  curvature_le E g (s_assign s) (s_res s) A K -> 0 <= K -> matmul A d = Ok Ad ->
  manifold_retract C (s_assign s) (mkAssign d (g_local_layout g)) = Ok prop -> compute_cost E g prop = Ok (c, r) ->
  sumsq (vadd Ad (s_res s)) <= s_cost s ->
  c <= sumsq (vadd Ad (s_res s)) + sumsq d * (2 * sqrt (s_cost s) * K + K * K * sumsq d).
Proof.
  intros Hs EA Hd HK HK0 EAd Hp Hc Hmod. destruct (prop_cost s A d prop c r Hs EA Hd Hp Hc) as (Hlr & ->).
  destruct (ready_at s A Hs EA) as (HA & _ & _ & _ & Hlr').
  rewrite matmul_mapply in EAd by auto. injection EAd as <-. set (u := vadd (mapply A d) (s_res s)) in *.
  assert (Hlu : length u = fst (m_shape A)) by (unfold u; rewrite vadd_length; rewrite ?mapply_length; auto).
  set (e := vsub r u). assert (Hle : length e = length u) by (unfold e; rewrite vsub_length; lia).
  assert (Er : r = vadd u e).
  { apply (nth_ext' _ _ 0); [rewrite vadd_length; lia|]. intros i Hi. rewrite nth_vadd by lia. unfold e. rewrite nth_vsub by lia. lra. }
  pose proof (HK d (mapply A d) prop _ r (matmul_mapply A d HA Hd) Hp Hc) as He. fold u in He. fold e in He. change (vnorm e <= K * sumsq d) in He.
  pose proof (norm_triangle u e ltac:(auto)) as Htri. rewrite <- Er in Htri.
  destruct (vnorm_sq u) as (U0 & U1). destruct (vnorm_sq e) as (E0 & _). pose proof (sumsq_nonneg d) as D0.
  assert (Hu : vnorm u <= sqrt (s_cost s)) by (apply sqrt_le_1_alt; auto).
  assert (Hk : 0 <= K * sumsq d) by (apply Rmult_le_pos; auto).
  assert (H1 : vnorm u * vnorm e <= sqrt (s_cost s) * (K * sumsq d)) by (apply Rmult_le_compat; auto).
  assert (H2 : vnorm e * vnorm e <= (K * sumsq d) * (K * sumsq d)) by (apply Rmult_le_compat; auto).
  rewrite <- U1. lra.
Qed.

Lemma lm_accepts cfg K s s' A ng : ready s -> compute_whitened_residual_jacobian E g (s_assign s) (s_res s) = Ok A ->
  matmul (transpose A) (vneg (s_res s)) = Ok ng -> ng <> vzero (length ng) ->
  curvature_le E g (s_assign s) (s_res s) A K -> 0 <= K -> 0 < s_extra s + Rlit 1 100000 -> lm_quality_min cfg <= 1 ->
  2 * sqrt (s_cost s) * K + K * K * (s_cost s / (2 * (s_extra s + Rlit 1 100000))) <= 2 * (1 - lm_quality_min cfg) * (s_extra s + Rlit 1 100000) ->
  lm_step E cfg cholmod_solve g s = Ok s' ->
  exists d prop c r q, trust_step E g (lm_quality_min cfg) s s' A d prop c r q /\ lm_quality_min cfg <= q /\ s_assign s' = prop.
Proof.
  intros Hs EA Eng Hnz HK HK0 Hl Hq1 Hcond H. destruct (lm_tr E _ _ _ _ _ H) as (A1 & ATb & d & prop & c & r & q & Ht & Eb & Ed & _).
  pose proof (tr_A _ _ _ _ _ _ _ _ _ _ _ Ht) as EA1. assert (A1 = A) by congruence. subst A1. assert (ATb = ng) by congruence. subst ATb.
  exists d, prop, c, r, q. split; auto. enough (Hacc : lm_quality_min cfg <= q).
  { split; auto. destruct Ht as [_ _ _ _ Ha _ _ _]. apply Ha. apply Rleb_ok. auto. }
  destruct (ready_at s A Hs EA) as (HA & Hlr & Hc & _ & Hlr').
  rewrite matmul_mapply in Eng by (try apply transpose_ok; auto). injection Eng as <-.
  assert (HlATb : length (mapply (transpose A) (vneg (s_res s))) = snd (m_shape A)) by apply mapply_length.
  destruct (cholmod_solve_ok A _ (s_extra s) (s_iter s) HA Hl HlATb) as (x & Ex & Hx). rewrite Ed in Ex. injection Ex as <-.
  set (be := s_extra s + Rlit 1 100000) in *. pose proof Ht as [_ Hp Hcost (Ad & EAd & Eq) _ _ _ _].
  pose proof (normal_strict A be (vneg (s_res s)) d HA Hl Hlr Hx) as Hst. rewrite vsub_neg_add in Hst by (rewrite mapply_length; auto). rewrite <- Hc in Hst.
  assert (Ead : Ad = mapply A d) by (rewrite matmul_mapply in EAd by (auto; apply Hx); congruence). subst Ad.
  pose proof (sumsq_nonneg (mapply A d)) as P1. pose proof (sumsq_nonneg d) as P2.
  assert (Hd0 : 0 < sumsq d).
  { destruct (Req_dec (sumsq d) 0) as [Hz|]; [|lra]. exfalso. apply Hnz. rewrite HlATb. apply (proj1 (normal_descent A be (vneg (s_res s)) d HA Hl Hlr Hx)).
    apply sumsq_zero in Hz. rewrite Hz. f_equal. apply Hx. }
  assert (P3 : 0 < be * sumsq d) by (apply Rmult_lt_0_compat; auto).
  pose proof (curvature_cost s A K d (mapply A d) prop c r Hs EA (proj1 Hx) HK HK0 EAd Hp Hcost ltac:(lra)) as Hcc.
  rnin Eq. rewrite Eq. apply gain_back; [lra|].
  set (m := sumsq (vadd (mapply A d) (s_res s))) in *. pose proof (sumsq_nonneg (vadd (mapply A d) (s_res s))) as Hm0. fold m in Hm0.
  assert (Hdb : sumsq d <= s_cost s / (2 * be)). { apply (Rmult_le_reg_r (2 * be)); [lra|]. replace (s_cost s / (2 * be) * (2 * be)) with (s_cost s) by (field; lra). lra. }
  assert (HKK : K * K * sumsq d <= K * K * (s_cost s / (2 * be))) by (apply Rmult_le_compat_l; [apply Rle_0_sqr | auto]).
  assert (Hfin : sumsq d * (2 * sqrt (s_cost s) * K + K * K * sumsq d) <= sumsq d * (2 * (1 - lm_quality_min cfg) * be)) by (apply Rmult_le_compat_l; lra).
  assert (Hpm : (1 - lm_quality_min cfg) * (2 * (be * sumsq d)) <= (1 - lm_quality_min cfg) * (s_cost s - m)) by (apply Rmult_le_compat_l; lra).
  lra.
Qed.

Lemma dl_accepts cfg F K s s' A ng : 0 <= F -> norm_le F A -> ready s -> compute_whitened_residual_jacobian E g (s_assign s) (s_res s) = Ok A ->
  matmul (transpose A) (vneg (s_res s)) = Ok ng ->
  curvature_le E g (s_assign s) (s_res s) A K -> 0 <= K -> 0 < s_extra s -> dl_quality_min cfg <= 1 ->
  s_extra s * (F + Rlit 1 100000) <= vnorm ng ->
  2 * sqrt (s_cost s) * K * s_extra s + K * K * (s_extra s * s_extra s * s_extra s) <= (1 - dl_quality_min cfg) * vnorm ng ->
  dl_step E cfg cholmod_solve g s = Ok s' ->
  exists d prop c r q, trust_step E g (dl_quality_min cfg) s s' A d prop c r q /\ dl_quality_min cfg <= q /\ s_assign s' = prop.
Proof.
  intros HF0 HF Hs EA Eng HK HK0 Hl Hq1 Hsmall Hcond H. destruct (dl_tr E _ _ _ _ _ H) as (A1 & ATb & gn & Asd & d & prop & c & r & q & Ht & Eb & Egn & Easd & Ed & _).
  pose proof (tr_A _ _ _ _ _ _ _ _ _ _ _ Ht) as EA1. assert (A1 = A) by congruence. subst A1. assert (ATb = ng) by congruence. subst ATb.
  exists d, prop, c, r, q. split; auto. enough (Hacc : dl_quality_min cfg <= q).
  { split; auto. destruct Ht as [_ _ _ _ Ha _ _ _]. apply Ha. apply Rleb_ok. auto. }
  destruct (ready_at s A Hs EA) as (HA & Hlr & Hc & _ & Hlr').
  rewrite matmul_mapply in Eng by (try apply transpose_ok; auto). injection Eng as <-.
  assert (HlATb : length (mapply (transpose A) (vneg (s_res s))) = snd (m_shape A)) by apply mapply_length.
  rewrite matmul_mapply in Easd by auto. injection Easd as <-.
  assert (Hmu : 0 < n0 + Rlit 1 100000) by (unfold Rlit; rn; lra).
  destruct (cholmod_solve_ok A _ n0 (s_iter s) HA Hmu HlATb) as (x & Ex & Hx). rewrite Egn in Ex. injection Ex as <-.
  replace (n0 + Rlit 1 100000) with (Rlit 1 100000) in * by (rn; lra). set (mu := Rlit 1 100000) in *.
  destruct (dogleg_lower A (vneg (s_res s)) F HA Hlr HF0 (norm_mapply A F _ HA HF HlATb) mu gn _ (s_extra s) Hmu Hl Hx eq_refl) as (D0 & D1 & D2). rewrite <- Ed in D0, D1, D2.
  set (ng := mapply (transpose A) (vneg (s_res s))) in *. set (rad := s_extra s) in *. destruct (vnorm_sq ng) as (G0 & G1).
  assert (Hng : 0 < vnorm ng). { assert (0 < rad * (F + mu)) by (apply Rmult_lt_0_compat; lra). lra. }
  assert (Emin : Rmin (rad * vnorm ng) (sumsq ng / (F + mu)) = rad * vnorm ng).
  { apply Rmin_left. apply (Rmult_le_reg_r (F + mu)); [lra|]. replace (sumsq ng / (F + mu) * (F + mu)) with (vnorm ng * vnorm ng) by (rewrite G1; field; lra).
    replace (rad * vnorm ng * (F + mu)) with (rad * (F + mu) * vnorm ng) by ring. apply Rmult_le_compat_r; lra. }
  rewrite Emin in D2. pose proof Ht as [_ Hp Hcost (Ad & EAd & Eq) _ _ _ _].
  assert (Ead : Ad = mapply A d) by (rewrite matmul_mapply in EAd by auto; congruence). subst Ad.
  pose proof (model_change A (vneg (s_res s)) HA Hlr d D0) as Hmc. rewrite vsub_neg_add in Hmc by (rewrite mapply_length; auto). rewrite <- Hc in Hmc. fold ng in Hmc.
  assert (Hpos : 0 < rad * vnorm ng) by (apply Rmult_lt_0_compat; auto).
  pose proof (curvature_cost s A K d (mapply A d) prop c r Hs EA D0 HK HK0 EAd Hp Hcost ltac:(lra)) as Hcc.
  rnin Eq. rewrite Eq. apply gain_back; [lra|].
  set (m := sumsq (vadd (mapply A d) (s_res s))) in *.
  destruct (vnorm_sq d) as (V0 & V1). assert (Hd2 : sumsq d <= rad * rad) by (rewrite <- V1; apply Rmult_le_compat; auto).
  pose proof (sumsq_nonneg d) as P2. assert (S0 : 0 <= sqrt (s_cost s)) by apply sqrt_pos.
  assert (HKK : K * K * sumsq d <= K * K * (rad * rad)) by (apply Rmult_le_compat_l; [apply Rle_0_sqr | auto]).
  assert (HsK : 0 <= 2 * sqrt (s_cost s) * K) by (apply Rmult_le_pos; lra). assert (HKp : 0 <= K * K * sumsq d) by (apply Rmult_le_pos; [apply Rle_0_sqr | auto]).
  assert (H1 : sumsq d * (2 * sqrt (s_cost s) * K + K * K * sumsq d) <= (rad * rad) * (2 * sqrt (s_cost s) * K + K * K * (rad * rad))) by (apply Rmult_le_compat; lra).
  assert (H2 : (rad * rad) * (2 * sqrt (s_cost s) * K + K * K * (rad * rad)) = rad * (2 * sqrt (s_cost s) * K * rad + K * K * (rad * rad * rad))) by ring.
  assert (H3 : rad * (2 * sqrt (s_cost s) * K * rad + K * K * (rad * rad * rad)) <= rad * ((1 - dl_quality_min cfg) * vnorm ng)) by (apply Rmult_le_compat_l; lra).
  assert (H4 : (1 - dl_quality_min cfg) * (rad * vnorm ng) <= (1 - dl_quality_min cfg) * (s_cost s - m)) by (apply Rmult_le_compat_l; lra).
  lra.
Qed.
End State.
