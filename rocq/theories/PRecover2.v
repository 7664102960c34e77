(* No endless sequence of rejected Levenberg-Marquardt proposals. *)
From Coq Require Import List Arith Bool ZArith Lia Reals Lra Psatz Permutation.
From Verif Require Import Num NumR Py Arr MLayout MAssign MNoise MSparse MFactor MGraph MLinear MSolver SpecLayout SpecTree SpecAssign SpecGraph SpecSparse SpecSolver SpecOrder SpecInv SpecDescent SpecRecover.
From Verif Require Import PBase PLayout PAssign PAssign2 PGraph PGraph2 PGraph4 PExGraph PVec PSparse PLinear PGraph5 PSolver PSolver2 PSolverR PJac PHold PInv POrder POrder2 PDescent PExDescent PRecover.
Import ListNotations.
Local Open Scope R_scope.

Section State.
Variable E : env R.
Variable fs : list (factor R).
Variable g : graph R.
Hypothesis CO : classes_ok (e_cls E).
Hypothesis Hok : forall f, In f fs -> factor_ok f.
Hypothesis Hm : graph_make E fs = Ok g.
Hypothesis Hws : well_shaped E fs.
Hypothesis Hrd : total residual_dim fs <> 0%nat.
Variable a : assign R.
Variable val : var -> pytree R.
Hypothesis Ha : assigns E fs a val.
Hypothesis Hl : same_layout (as_layout a) (g_layout g).
Variables (c0 : R) (r0 : list R) (A : coo R) (ng : list R) (F K : R).
Hypothesis Hc0 : compute_cost E g a = Ok (c0, r0).
Hypothesis EA : forall r, length r = length r0 -> compute_whitened_residual_jacobian E g a r = Ok A.
Hypothesis HF0 : 0 <= F.
Hypothesis HF : norm_le F A.
Hypothesis HK : curvature_le E g a r0 A K.
Hypothesis HK0 : 0 <= K.
Hypothesis Eng : matmul (transpose A) (vneg r0) = Ok ng.
Hypothesis Hnz : ng <> vzero (length ng).

Let base : sstate R := mkState 0%nat a c0 r0 false 1.
Lemma base_ready : ready E fs g base.
Proof. apply (starts_ready E fs g Hok Hm base val); auto. Qed.
Lemma base_facts : coo_ok A /\ length r0 = fst (m_shape A) /\ c0 = sumsq r0 /\ 0 < sumsq (mapply (transpose A) r0) /\
  forall x, length x = snd (m_shape A) -> vnorm (mapply A x) <= sqrt F * vnorm x.
Proof.
  destruct (ready_at E fs g CO Hok Hm Hws Hrd base A base_ready (EA r0 eq_refl)) as (HA & Hlr & Hc & _ & Hlr'). cbn [s_res s_cost base] in *.
  split; auto. split; auto. split; [rewrite Hc; apply sumsq_neg|]. split.
  - assert (Hx : ng = vneg (mapply (transpose A) r0)).
    { rewrite matmul_mapply in Eng by (try apply transpose_ok; auto). injection Eng as <-.
      assert (HT := transpose_ok A HA). apply (vec_ext (snd (m_shape A))); rewrite ?vneg_length; try apply mapply_length.
      intros y Hy. rewrite vdot_neg_r. rewrite <- !mapply_adjoint by auto. rewrite vdot_neg_r. auto. }
    destruct (Req_dec (sumsq (mapply (transpose A) r0)) 0) as [Hz|Hz]; [|pose proof (sumsq_nonneg (mapply (transpose A) r0)); lra].
    exfalso. apply Hnz. apply sumsq_zero. rewrite Hx, sumsq_neg. auto.
  - intros x Hx. destruct (vnorm_sq x) as (X0 & X1). apply norm_from; [apply Rmult_le_pos; auto; apply sqrt_pos|].
    replace (sqrt F * vnorm x * (sqrt F * vnorm x)) with ((sqrt F * sqrt F) * (vnorm x * vnorm x)) by ring. rewrite sqrt_sqrt, X1 by auto. apply norm_mapply; auto.
Qed.

Section Cfg.
Variable cfg : lm_cfg R.
Hypothesis Hq : 0 < lm_quality_min cfg.
Let step := lm_step E cfg cholmod_solve g.
Let eps := Rlit 1 100000.

Lemma one_turn s s' : s_assign s = a -> length (s_res s) = length r0 -> 0 < s_extra s -> step s = Ok s' ->
  exists d, normal_ok A (s_extra s + eps) (mapply (transpose A) (vneg (s_res s))) d /\ lands A r0 K d (s_res s') /\
    let q := (sumsq (s_res s') - s_cost s) / (sumsq (vadd (mapply A d) (s_res s)) - s_cost s) in
    (lm_quality_min cfg <= q -> s_cost s' = sumsq (s_res s') /\ current E g s') /\
    (stays s s' -> s_extra s' = Rmax (lambda_min cfg) (Rmin (s_extra s * lambda_factor cfg) (lambda_max cfg))).
Proof.
  intros Es Hlen Hx H. destruct base_facts as (HA & Hlr0 & Hc & _). destruct (lm_tr E _ _ _ _ _ H) as (A1 & ATb & d & prop & c & r & q & Ht & Eb & Ed & Ee & _).
  pose proof (tr_A _ _ _ _ _ _ _ _ _ _ _ Ht) as EA1. rewrite Es, EA in EA1 by auto. injection EA1 as <-.
  rewrite matmul_mapply in Eb by (try apply transpose_ok; auto; rewrite vneg_length; cbn [transpose m_shape snd]; lia). injection Eb as <-.
  assert (HlATb : length (mapply (transpose A) (vneg (s_res s))) = snd (m_shape A)) by apply mapply_length.
  assert (Hbe : 0 < s_extra s + eps) by (unfold eps, Rlit; lra).
  destruct (cholmod_solve_ok A _ (s_extra s) (s_iter s) HA Hbe HlATb) as (x & Ex & Hn). rewrite Ed in Ex. injection Ex as <-.
  destruct Ht as [_ Hp Hcost (Ad & EAd & Eq) Hacc Hrej Hres _]. rewrite Es in Hp. rewrite Hres.
  assert (Hld : length d = snd (m_shape A)) by apply Hn.
  rewrite matmul_mapply in EAd by auto. injection EAd as <-.
  destruct (prop_cost E fs g CO Hok Hm Hws Hrd base A d prop c r base_ready (EA r0 eq_refl) Hld Hp Hcost) as (Hlr & ->).
  exists d. split; auto. split.
  { split; auto. split; auto. apply (HK d (mapply A d) prop (sumsq r) r); auto. apply matmul_mapply; auto. }
  rnin Eq. cbv zeta. rewrite <- Eq. rnin Hacc. split.
  - intros Hle. destruct (Hacc (proj2 (Rleb_ok _ _) Hle)) as (E1 & E2). split; auto. unfold current. rewrite E1, E2, Hres. auto.
  - intros (_ & Hst). rnin Ee. destruct (Rleb (lm_quality_min cfg) q) eqn:Hb; [|exact Ee]. exfalso.
    destruct (Hacc eq_refl) as (_ & E2). apply Rleb_ok in Hb. rewrite <- E2, Hst in Eq. unfold Rminus in Eq. rewrite Rplus_opp_r in Eq. unfold Rdiv in Eq. rewrite Rmult_0_l in Eq. lra.
Qed.
End Cfg.

Variables f q B : R.
Hypothesis Hf : 1 <= f.
Hypothesis Hq : 0 < q.
Hypothesis Hqf : q * (1 + f) < 1.
Hypothesis HB : 0 <= B.

(* after two rejections at large damping the next proposal is accepted, and lowers the cost *)
Lemma recovers : exists L, 1 <= L /\ forall cfg s0 s1 s2 s3, lambda_factor cfg = f -> lm_quality_min cfg = q -> lambda_min cfg <= s_extra s0 ->
  s_assign s0 = a -> s_cost s0 = c0 -> length (s_res s0) = length r0 -> sumsq (s_res s0) <= B ->
  L <= s_extra s0 -> L <= lambda_max cfg ->
  lm_step E cfg cholmod_solve g s0 = Ok s1 -> stays s0 s1 -> lm_step E cfg cholmod_solve g s1 = Ok s2 -> stays s1 s2 ->
  lm_step E cfg cholmod_solve g s2 = Ok s3 -> s_cost s3 < c0 /\ current E g s3.
Proof.
  destruct base_facts as (HA & Hlr0 & Hc & HG & HFn).
  destruct (recover_vec A (sqrt F) K f q (sqrt B) r0 HA (sqrt_pos F) HFn Hlr0 HK0 Hf Hq Hqf (sqrt_pos B) HG) as (L & HL1 & HL).
  exists L. split; auto. intros cfg s0 s1 s2 s3 Ef Eq Hmin Es Ec Hlen Hres HL0 Hmax T0 S0 T1 S1 T2. rewrite <- Eq in Hq.
  set (eps := Rlit 1 100000). assert (Heps : 0 < eps) by (unfold eps, Rlit; lra).
  assert (Hcap : forall x, L <= x -> lambda_min cfg <= x -> let y := Rmax (lambda_min cfg) (Rmin (x * lambda_factor cfg) (lambda_max cfg)) in L <= y /\ y <= f * x /\ lambda_min cfg <= y).
  { intros x Hx Hx2. rewrite Ef. cbv zeta. assert (Hxf : x * 1 <= x * f) by (apply Rmult_le_compat_l; lra).
    assert (L <= Rmin (x * f) (lambda_max cfg)) by (apply Rmin_glb; lra). pose proof (Rmax_r (lambda_min cfg) (Rmin (x * f) (lambda_max cfg))).
    split; [lra|]. split; [|apply Rmax_l]. apply Rmax_lub; [lra|]. pose proof (Rmin_l (x * f) (lambda_max cfg)). lra. }
  destruct (one_turn cfg Hq s0 s1 Es Hlen ltac:(lra) T0) as (d2 & N2 & L2 & (_ & X1)). specialize (X1 S0).
  destruct (Hcap _ HL0 Hmin) as (M1 & M2 & M3). rewrite <- X1 in M1, M2, M3.
  assert (Es1 : s_assign s1 = a) by (rewrite (proj1 S0); auto). assert (Hlen1 : length (s_res s1) = length r0) by (destruct L2 as (_ & ? & _); lia).
  destruct (one_turn cfg Hq s1 s2 Es1 Hlen1 ltac:(lra) T1) as (d1 & N1 & L1 & (_ & X2)). specialize (X2 S1).
  destruct (Hcap _ M1 M3) as (M4 & M5 & M6). rewrite <- X2 in M4, M5, M6.
  assert (Es2 : s_assign s2 = a) by (rewrite (proj1 S1); auto). assert (Hlen2 : length (s_res s2) = length r0) by (destruct L1 as (_ & ? & _); lia).
  destruct (one_turn cfg Hq s2 s3 Es2 Hlen2 ltac:(lra) T2) as (d0 & N0 & L0 & (X3 & _)). fold eps in N2, N1, N0.
  assert (Hfe : eps * 1 <= f * eps) by (rewrite (Rmult_comm f); apply Rmult_le_compat_l; lra).
  assert (Hn : vnorm (s_res s0) <= sqrt B) by (apply norm_from; [apply sqrt_pos|]; rewrite sqrt_sqrt by auto; auto).
  destruct (HL (s_extra s0 + eps) (s_extra s1 + eps) (s_extra s2 + eps) (s_res s0) d2 (s_res s1) d1 (s_res s2) d0 (s_res s3) ltac:(lra) ltac:(lra) ltac:(lra) ltac:(lra) ltac:(lra) ltac:(lia) Hn N2 L2 N1 L1 N0 L0) as (G1 & G2 & G3).
  assert (Ec2 : s_cost s2 = sumsq r0) by (rewrite (proj2 S1), (proj2 S0), Ec; auto). rewrite Ec2 in X3.
  destruct X3 as (Y1 & Y2). { rewrite Eq. apply gain_back; auto. }
  split; auto. rewrite Y1, Hc. auto.
Qed.

Lemma stuck_split step n m s s'' : stuck B step (n + m) s s'' -> exists s', stuck B step n s s' /\ stuck B step m s' s''.
Proof.
  revert s. induction n as [|n IH]; intros s H; [exists s; split; auto; constructor|].
  cbn [plus] in H. inversion H as [|n' x y z H1 H2 H3 H4]; subst. destruct (IH _ H4) as (s' & G1 & G2). exists s'. split; auto. econstructor; eauto.
Qed.

Lemma stuck_cons step n s s'' : stuck B step (S n) s s'' -> exists s', step s = Ok s' /\ stays s s' /\ sumsq (s_res s) <= B /\ stuck B step n s' s''.
Proof. intros H. inversion H; subst; eauto 6. Qed.
Lemma stuck_nil step s s' : stuck B step 0 s s' -> s' = s.
Proof. intros H. inversion H; subst; auto. Qed.
Lemma growth (x y : R) : 1 < f -> 0 < x -> exists n, y <= f ^ n * x.
Proof.
  intros Hf1 Hx. destruct (Pow_x_infinity f ltac:(rewrite Rabs_pos_eq; lra) (Rmax 0 (y / x))) as (n & Hn). exists n. specialize (Hn n (le_n n)).
  rewrite Rabs_pos_eq in Hn by (apply pow_le; lra). pose proof (Rmax_r 0 (y / x)). apply Rge_le in Hn.
  apply (Rmult_le_reg_r (/ x)); [apply Rinv_0_lt_compat; auto|]. replace (f ^ n * x * / x) with (f ^ n) by (field; lra). unfold Rdiv in *. lra.
Qed.

Lemma never_stuck lmin : 1 < f -> 0 < lmin -> exists L n, forall cfg s s', lambda_factor cfg = f -> lm_quality_min cfg = q -> lmin <= lambda_min cfg -> L <= lambda_max cfg ->
  s_assign s = a -> s_cost s = c0 -> length (s_res s) = length r0 -> 0 < s_extra s -> ~ stuck B (lm_step E cfg cholmod_solve g) n s s'.
Proof.
  intros Hf1 Hlm. destruct recovers as (L & HL1 & HL). destruct (growth lmin L Hf1 Hlm) as (n & Hn).
  exists L, (1 + (n + 3))%nat. intros cfg s s' Ef Eq Hmin Hmax Es Ec Hlen Hx H. assert (Hq' : 0 < lm_quality_min cfg) by lra.
  assert (Hstep : forall s s', s_assign s = a -> s_cost s = c0 -> length (s_res s) = length r0 -> 0 < s_extra s -> lm_step E cfg cholmod_solve g s = Ok s' -> stays s s' ->
    s_assign s' = a /\ s_cost s' = c0 /\ length (s_res s') = length r0 /\ lambda_min cfg <= s_extra s' /\ Rmin (s_extra s * f) (lambda_max cfg) <= s_extra s').
  { intros t t' Et Ect Hlt Hxt Ht St. destruct (one_turn cfg Hq' t t' Et Hlt Hxt Ht) as (d & _ & (_ & Hl1 & _) & (_ & X)). specialize (X St). destruct St as (S1 & S2).
    destruct base_facts as (_ & Hlr & _). rewrite Ef in X. split; [congruence|]. split; [congruence|]. split; [lia|]. rewrite X. split; [apply Rmax_l | apply Rmax_r]. }
  destruct (stuck_split _ 1 (n + 3) _ _ H) as (t & H1 & H2). destruct (stuck_cons _ _ _ _ H1) as (t1 & G1 & G2 & G3 & G4). apply stuck_nil in G4. subst t1.
  destruct (Hstep s t Es Ec Hlen Hx G1 G2) as (Ta & Tc & Tl & Tm & _).
  assert (Hrun : forall k t t', s_assign t = a -> s_cost t = c0 -> length (s_res t) = length r0 -> lmin <= s_extra t -> lambda_min cfg <= s_extra t -> stuck B (lm_step E cfg cholmod_solve g) k t t' ->
    s_assign t' = a /\ s_cost t' = c0 /\ length (s_res t') = length r0 /\ lambda_min cfg <= s_extra t' /\ Rmin (f ^ k * lmin) L <= s_extra t').
  { induction k as [|k IH]; intros u u' U1 U2 U3 U4 U5 Hk.
    - apply stuck_nil in Hk. subst u'. split; auto. split; auto. split; auto. split; auto. cbn [pow]. pose proof (Rmin_l (1 * lmin) L). lra.
    - replace (S k) with (k + 1)%nat in Hk by lia. destruct (stuck_split _ k 1 _ _ Hk) as (w & W1 & W2).
      destruct (IH u w U1 U2 U3 U4 U5 W1) as (V1 & V2 & V3 & V4 & V5). destruct (stuck_cons _ _ _ _ W2) as (u1 & K1 & K2 & K3 & K4). apply stuck_nil in K4. subst u1.
      destruct (Hstep w u' V1 V2 V3 ltac:(lra) K1 K2) as (Z1 & Z2 & Z3 & Z4 & Z5). split; auto. split; auto. split; auto. split; auto.
      eapply Rle_trans; [|exact Z5]. cbn [pow]. apply Rmin_glb; [|pose proof (Rmin_r (f * f ^ k * lmin) L); lra].
      destruct (Rle_lt_dec (f ^ k * lmin) L) as [Hle|Hgt].
      + rewrite Rmin_left in V5 by auto. pose proof (Rmin_l (f * f ^ k * lmin) L). assert (f ^ k * lmin * f <= s_extra w * f) by (apply Rmult_le_compat_r; lra). lra.
      + rewrite Rmin_right in V5 by lra. pose proof (Rmin_r (f * f ^ k * lmin) L). assert (s_extra w * 1 <= s_extra w * f) by (apply Rmult_le_compat_l; lra). lra. }
  destruct (stuck_split _ n 3 _ _ H2) as (w & W1 & W2).
  destruct (Hrun n t w Ta Tc Tl ltac:(lra) Tm W1) as (V1 & V2 & V3 & V4 & V5). rewrite Rmin_right in V5 by lra.
  destruct (stuck_cons _ _ _ _ W2) as (s1 & A1 & A2 & A3 & A4). destruct (stuck_cons _ _ _ _ A4) as (s2 & B1 & B2 & B3 & B4). destruct (stuck_cons _ _ _ _ B4) as (s3 & D1 & D2 & D3 & D4).
  destruct (HL cfg w s1 s2 s3 Ef Eq V4 V1 V2 V3 A3 V5 Hmax A1 A2 B1 B2 D1) as (X & _).
  destruct A2 as (_ & A2), B2 as (_ & B2), D2 as (_ & D2). rewrite D2, B2, A2, V2 in X. lra.
Qed.
End State.
