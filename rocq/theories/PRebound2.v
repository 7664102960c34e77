(* No endless sequence of rejected dogleg proposals. *)
From Coq Require Import List Arith Bool ZArith Lia Reals Lra Psatz Permutation.
From Verif Require Import Num NumR Py Arr MLayout MAssign MNoise MSparse MFactor MGraph MLinear MSolver SpecLayout SpecTree SpecAssign SpecGraph SpecSparse SpecSolver SpecOrder SpecInv SpecDescent SpecRecover.
From Verif Require Import PBase PLayout PAssign PAssign2 PGraph PGraph2 PGraph4 PExGraph PVec PSparse PLinear PGraph5 PSolver PSolver2 PSolverR PJac PHold PInv POrder POrder2 PDescent PExDescent PRecover PRecover2 PRebound.
Import ListNotations.
Local Open Scope R_scope.

Section State.
Variable E : env R.
Variable fs : list (factor R).
Variable g : graph R.
Hypothesis CO : classes_ok (e_cls E).
Hypothesis Hok : forall f, In f fs -> factor_ok f.
Hypothesis Hm : graph_make E fs = Ok g.
Hypothesis Hws : well_shaped E fs.
Hypothesis Hrd : total residual_dim fs <> 0%nat.
Variable a : assign R.
Variable val : var -> pytree R.
Hypothesis Ha : assigns E fs a val.
Hypothesis Hl : same_layout (as_layout a) (g_layout g).
Variables (c0 : R) (r0 : list R) (A : coo R) (ng : list R) (F K : R).
Hypothesis Hc0 : compute_cost E g a = Ok (c0, r0).
Hypothesis EA : forall r, length r = length r0 -> compute_whitened_residual_jacobian E g a r = Ok A.
Hypothesis HF0 : 0 <= F.
Hypothesis HF : norm_le F A.
Hypothesis HK : curvature_le E g a r0 A K.
Hypothesis HK0 : 0 <= K.
Hypothesis Eng : matmul (transpose A) (vneg r0) = Ok ng.
Hypothesis Hnz : ng <> vzero (length ng).

Let base : sstate R := mkState 0%nat a c0 r0 false 1.
Let facts := base_facts E fs g CO Hok Hm Hws Hrd a val Ha Hl c0 r0 A ng F Hc0 EA HF0 HF Eng Hnz.
Let bready : ready E fs g base := base_ready E fs g Hok Hm a val Ha Hl c0 r0 Hc0.
Let mu := Rlit 1 100000.

Lemma mu_pos : 0 < mu. Proof. unfold mu, Rlit. lra. Qed.
Lemma facts_ok : coo_ok A /\ length r0 = fst (m_shape A) /\ c0 = sumsq r0 /\ 0 < sumsq (mapply (transpose A) r0) /\
  forall x, length x = snd (m_shape A) -> sumsq (mapply A x) <= F * sumsq x.
Proof. destruct facts as (H1 & H2 & H3 & H4 & _). split; auto. split; auto. split; auto. split; auto. intros x Hx. apply norm_mapply; auto. Qed.

Section Cfg.
Variable cfg : dl_cfg R.
Hypothesis Hq : 0 < dl_quality_min cfg.
Hypothesis Hq3 : dl_quality_min cfg <= 3/4.

Lemma one_turn_dl s s' : s_assign s = a -> length (s_res s) = length r0 -> 0 < s_extra s -> dl_step E cfg cholmod_solve g s = Ok s' ->
  exists gn d, let sd := mapply (transpose A) (vneg (s_res s)) in normal_ok A mu sd gn /\ d = dogleg_step_of sd (mapply A sd) gn (s_extra s) /\
    vnorm d <= s_extra s /\ lands A r0 K d (s_res s') /\
    let q := (sumsq (s_res s') - s_cost s) / (sumsq (vadd (mapply A d) (s_res s)) - s_cost s) in
    (dl_quality_min cfg <= q -> s_cost s' = sumsq (s_res s') /\ current E g s') /\
    (stays s s' -> (s_extra s' = s_extra s / 2 \/ (s_extra s' = s_extra s /\ 1/4 < dl_quality_min cfg))).
Proof.
  intros Es Hlen Hx H. destruct facts_ok as (HA & Hlr0 & Hc & _ & HFv). destruct (dl_tr E _ _ _ _ _ H) as (A1 & ATb & gn & Asd & d & prop & c & r & q & Ht & Eb & Egn & Easd & Ed & Ee & _).
  pose proof (tr_A _ _ _ _ _ _ _ _ _ _ _ Ht) as EA1. rewrite Es, EA in EA1 by auto. injection EA1 as <-.
  assert (Hlr : length (vneg (s_res s)) = fst (m_shape A)) by (rewrite vneg_length; lia).
  rewrite matmul_mapply in Eb by (try apply transpose_ok; auto). injection Eb as <-.
  assert (HlATb : length (mapply (transpose A) (vneg (s_res s))) = snd (m_shape A)) by apply mapply_length.
  rewrite matmul_mapply in Easd by auto. injection Easd as <-.
  assert (Hmu : 0 < n0 + Rlit 1 100000) by (unfold Rlit; rn; lra).
  destruct (cholmod_solve_ok A _ n0 (s_iter s) HA Hmu HlATb) as (x & Ex & Hn). rewrite Egn in Ex. injection Ex as <-.
  replace (n0 + Rlit 1 100000) with mu in Hn by (unfold mu; rn; lra).
  destruct (dogleg_lower A (vneg (s_res s)) F HA Hlr HF0 (HFv _ HlATb) mu gn _ (s_extra s) mu_pos Hx Hn eq_refl) as (D0 & D1 & _). rewrite <- Ed in D0, D1.
  destruct Ht as [_ Hp Hcost (Ad & EAd & Eq) Hacc Hrej Hres _]. rewrite Es in Hp. rewrite Hres.
  rewrite matmul_mapply in EAd by auto. injection EAd as <-.
  destruct (prop_cost E fs g CO Hok Hm Hws Hrd base A d prop c r bready (EA r0 eq_refl) D0 Hp Hcost) as (Hlr' & ->).
  exists gn, d. cbv zeta. split; auto. split; auto. split; auto. split.
  { split; auto. split; auto. apply (HK d (mapply A d) prop (sumsq r) r); auto. apply matmul_mapply; auto. }
  rnin Eq. rewrite <- Eq. rnin Hacc. split.
  - intros Hle. destruct (Hacc (proj2 (Rleb_ok _ _) Hle)) as (E1 & E2). split; auto. unfold current. rewrite E1, E2, Hres. auto.
  - intros (_ & Hst).
    assert (Hlt : q < dl_quality_min cfg).
    { destruct (Rle_lt_dec (dl_quality_min cfg) q) as [Hb|]; auto. exfalso. destruct (Hacc (proj2 (Rleb_ok _ _) Hb)) as (_ & E2).
      rewrite <- E2, Hst in Eq. unfold Rminus in Eq. rewrite Rplus_opp_r in Eq. unfold Rdiv in Eq. rewrite Rmult_0_l in Eq. lra. }
    rewrite Ee. unfold dogleg_radius. rn. destruct (Rltb q (Rlit 1 4)) eqn:H1; [left; unfold Rlit; lra|]. apply Rltb_no in H1.
    destruct (Rltb (Rlit 3 4) q) eqn:H2; [apply Rltb_ok in H2; unfold Rlit in H2; lra|]. right. split; auto. unfold Rlit in H1. lra.
Qed.
End Cfg.

Variable q : R.
Hypothesis Hq : 0 < q.
Hypothesis Hq3 : 3 * q < 1.

(* after two rejections at small radius the next proposal is accepted, and lowers the cost *)
Lemma rebounds : exists delta, 0 < delta /\ forall cfg s0 s1 s2 s3, dl_quality_min cfg = q ->
  s_assign s0 = a -> s_cost s0 = c0 -> length (s_res s0) = length r0 -> 0 < s_extra s0 <= delta ->
  dl_step E cfg cholmod_solve g s0 = Ok s1 -> stays s0 s1 -> dl_step E cfg cholmod_solve g s1 = Ok s2 -> stays s1 s2 ->
  dl_step E cfg cholmod_solve g s2 = Ok s3 -> s_cost s3 < c0 /\ current E g s3.
Proof.
  destruct facts_ok as (HA & Hlr0 & Hc & HG & HFv). set (G0 := mapply (transpose A) r0) in *. set (gr := vnorm G0). destruct (vnorm_sq G0) as (Hg0 & Hg1).
  assert (Hgr : 0 < gr). { unfold gr. destruct (Req_dec (vnorm G0) 0) as [Ez|]; [rewrite Ez in Hg1; lra | lra]. }
  set (b := sqrt F). assert (Hb : 0 <= b) by apply sqrt_pos. set (c := b * (b + K)). set (R0 := vnorm r0). assert (HR0 : 0 <= R0) by apply vnorm_sq.
  set (C8 := 2 * (R0 * K) + (b + K) * (b + K)). set (C9 := 2 * (R0 * K) + (b + (b + K)) * (b + (b + K))).
  assert (Pc : 0 <= c) by (unfold c; apply Rmult_le_pos; lra). assert (PRK : 0 <= R0 * K) by (apply Rmult_le_pos; auto).
  assert (P8 : 0 <= C8). { unfold C8. pose proof (Rle_0_sqr (b + K)). unfold Rsqr in *. lra. }
  assert (P9 : 0 <= C9). { unfold C9. pose proof (Rle_0_sqr (b + (b + K))). unfold Rsqr in *. lra. }
  pose proof mu_pos as Hmu. set (T := 4 * c + C8 + 2 * C9 + 2 * (F + mu) + 1). assert (HT : 1 <= T) by (unfold T; lra).
  set (th := 1 - 3 * q). assert (Hth : 0 < th < 1) by (unfold th; lra).
  assert (Hgt : 0 < gr * th) by (apply Rmult_lt_0_compat; lra).
  exists (Rmin 1 (gr * th / (2 * T))). set (delta := Rmin 1 (gr * th / (2 * T))).
  assert (Hd1 : delta <= 1) by apply Rmin_l. assert (Hdp : 0 < delta) by (apply Rmin_glb_lt; [lra|]; apply Rdiv_lt_0_compat; lra).
  assert (HdT : T * delta < gr * th).
  { assert (delta <= gr * th / (2 * T)) by apply Rmin_r. assert (T * delta <= T * (gr * th / (2 * T))) by (apply Rmult_le_compat_l; lra).
    replace (T * (gr * th / (2 * T))) with (gr * th / 2) in * by (field; lra). lra. }
  split; auto. intros cfg s0 s1 s2 s3 Eq Es Ec Hlen Hrad T0 S0 T1 S1 T2.
  assert (Hq' : 0 < dl_quality_min cfg) by lra. assert (Hq3' : dl_quality_min cfg <= 3/4) by lra.
  destruct (one_turn_dl cfg Hq' Hq3' s0 s1 Es Hlen ltac:(lra) T0) as (gn2 & d2 & _ & _ & N2 & L2 & (_ & X1)). specialize (X1 S0).
  assert (Es1 : s_assign s1 = a) by (rewrite (proj1 S0); auto). assert (Hlen1 : length (s_res s1) = length r0) by (destruct L2 as (_ & ? & _); lia).
  assert (Hr1 : 0 < s_extra s1 <= s_extra s0) by (destruct X1 as [-> | (-> & _)]; lra).
  destruct (one_turn_dl cfg Hq' Hq3' s1 s2 Es1 Hlen1 ltac:(lra) T1) as (gn1 & d1 & O1 & Ed1 & N1 & L1 & (_ & X2)). specialize (X2 S1).
  assert (Es2 : s_assign s2 = a) by (rewrite (proj1 S1); auto). assert (Hlen2 : length (s_res s2) = length r0) by (destruct L1 as (_ & ? & _); lia).
  assert (Hr2 : 0 < s_extra s2 <= s_extra s1 /\ s_extra s1 <= 2 * s_extra s2) by (destruct X2 as [-> | (-> & _)]; split; lra).
  destruct (one_turn_dl cfg Hq' Hq3' s2 s3 Es2 Hlen2 ltac:(lra) T2) as (gn0 & d0 & O0 & Ed0 & N0 & L0 & (X3 & _)).
  set (D2 := s_extra s0) in *. set (D1 := s_extra s1) in *. set (D0 := s_extra s2) in *.
  assert (HFn' : forall x, length x = snd (m_shape A) -> vnorm (mapply A x) <= b * vnorm x) by (intros; apply HFn; auto).
  assert (Hsq : forall d D, 0 < D -> D <= 1 -> vnorm d <= D -> b * vnorm d + K * sumsq d <= (b + K) * D /\ sumsq d <= D * D).
  { intros d D HD0 HD1 Hd. destruct (vnorm_sq d) as (V0 & V1). assert (Hss : sumsq d <= D * D) by (rewrite <- V1; apply Rmult_le_compat; auto). split; auto.
    assert (D * D <= D * 1) by (apply Rmult_le_compat_l; lra). assert (K * sumsq d <= K * D) by (apply Rmult_le_compat_l; lra). assert (b * vnorm d <= b * D) by (apply Rmult_le_compat_l; auto). lra. }
  destruct (Hsq d2 D2 ltac:(lra) ltac:(lra) N2) as (Q2 & _). destruct (Hsq d1 D1 ltac:(lra) ltac:(lra) N1) as (Q1 & W1). destruct (Hsq d0 D0 ltac:(lra) ltac:(lra) N0) as (Q0 & W0).
  destruct (land_move A b r0 HFn' Hlr0 K d2 _ L2) as (M2 & _). destruct (land_move A b r0 HFn' Hlr0 K d1 _ L1) as (M1 & _).
  assert (Om : forall rho D, vnorm (vsub rho r0) <= (b + K) * D -> b * vnorm (vsub rho r0) <= c * D).
  { intros rho D H. assert (b * vnorm (vsub rho r0) <= b * ((b + K) * D)) by (apply Rmult_le_compat_l; auto). unfold c. lra. }
  assert (HTd : forall D, 0 < D -> D <= delta -> (4 * c + C8 + 2 * C9) * D < gr * th /\ c * D < gr / 4 /\ (F + mu) * D < gr / 2).
  { intros D HDp HD. assert (HTD : T * D <= T * delta) by (apply Rmult_le_compat_l; lra). assert (gr * th < gr) by nra.
    assert (0 <= c * D) by (apply Rmult_le_pos; lra). assert (0 <= C8 * D) by (apply Rmult_le_pos; lra). assert (0 <= C9 * D) by (apply Rmult_le_pos; lra). assert (0 <= (F + mu) * D) by (apply Rmult_le_pos; lra).
    assert (ET : T * D = 4 * (c * D) + C8 * D + 2 * (C9 * D) + 2 * ((F + mu) * D) + D) by (unfold T; ring). split; [lra|]. split; lra. }
  destruct (HTd D2 ltac:(lra) ltac:(lra)) as (_ & A1 & _). destruct (HTd D1 ltac:(lra) ltac:(lra)) as (A2 & A3 & A4). destruct (HTd D0 ltac:(lra) ltac:(lra)) as (_ & _ & A5).
  assert (Om1 : b * vnorm (vsub (s_res s1) r0) <= c * D2) by (apply Om; lra). assert (Om0 : b * vnorm (vsub (s_res s2) r0) <= c * D1) by (apply Om; lra).
  destruct (cauchy_dir A F r0 HA HF0 HFv Hlr0 (s_res s1) D1 (c * D2) ltac:(lia) ltac:(lra) Om1 ltac:(fold G0; fold gr; lra)) as (V1 & U1).
  destruct (cauchy_dir A F r0 HA HF0 HFv Hlr0 (s_res s2) D0 (c * D1) ltac:(lia) ltac:(lra) Om0 ltac:(fold G0; fold gr; lra)) as (V0 & U0).
  fold G0 in V1, U1, V0, U0. fold gr in V1, U1, V0, U0.
  assert (B1 : d1 = vscale (D1 / vnorm (mapply (transpose A) (vneg (s_res s1)))) (mapply (transpose A) (vneg (s_res s1)))).
  { rewrite Ed1. apply (cauchy_branch A F r0 HA HF0 HFv Hlr0 mu Hmu (s_res s1) gn1 D1); auto; try lia; lra. }
  assert (B0 : d0 = vscale (D0 / vnorm (mapply (transpose A) (vneg (s_res s2)))) (mapply (transpose A) (vneg (s_res s2)))).
  { rewrite Ed0. apply (cauchy_branch A F r0 HA HF0 HFv Hlr0 mu Hmu (s_res s2) gn0 D0); auto; try lia; lra. }
  rewrite <- B1 in U1. rewrite <- B0 in U0.
  pose proof (cost_change A b r0 HFn' Hlr0 K d0 _ L0) as CC. pose proof (model_change' A b r0 HFn' Hlr0 K d0 d1 _ (proj1 L0) L1) as MC. fold R0 in CC, MC.
  destruct (vnorm_sq d0) as (Z0 & _). destruct (vnorm_sq d1) as (Z1 & _). pose proof (sumsq_nonneg d0) as Y0. pose proof (sumsq_nonneg d1) as Y1.
  assert (RK0 : R0 * (K * sumsq d0) <= R0 * K * (D0 * D0)) by (rewrite <- Rmult_assoc; apply Rmult_le_compat_l; auto).
  assert (RK1 : R0 * (K * sumsq d1) <= R0 * K * (D1 * D1)) by (rewrite <- Rmult_assoc; apply Rmult_le_compat_l; auto).
  assert (Pm0 : 0 <= b * vnorm d0 + K * sumsq d0) by npos. assert (Pm1 : 0 <= b * vnorm d1 + K * sumsq d1) by npos. assert (Pb0 : 0 <= b * vnorm d0) by npos.
  assert (HN : Rabs (sumsq (s_res s3) - sumsq r0 - 2 * vdot r0 (mapply A d0)) <= C8 * (D0 * D0)).
  { eapply Rle_trans; [exact CC|]. assert ((b * vnorm d0 + K * sumsq d0) * (b * vnorm d0 + K * sumsq d0) <= ((b + K) * D0) * ((b + K) * D0)) by (apply Rmult_le_compat; auto). unfold C8. lra. }
  assert (HD : Rabs (sumsq (vadd (mapply A d0) (s_res s2)) - sumsq r0 - 2 * vdot r0 (mapply A d0) - 2 * vdot r0 (mapply A d1)) <= C9 * (D1 * D1)).
  { eapply Rle_trans; [exact MC|]. assert (Hin : b * vnorm d0 + (b * vnorm d1 + K * sumsq d1) <= (b + (b + K)) * D1) by (assert (b * vnorm d0 <= b * D1) by (apply Rmult_le_compat_l; lra); lra).
    assert ((b * vnorm d0 + (b * vnorm d1 + K * sumsq d1)) * (b * vnorm d0 + (b * vnorm d1 + K * sumsq d1)) <= ((b + (b + K)) * D1) * ((b + (b + K)) * D1)) by (apply Rmult_le_compat; lra). unfold C9. lra. }
  assert (HP1 : - D1 * gr <= vdot r0 (mapply A d1) <= 0). { split; [lra|]. assert (0 <= D1 * (gr - 2 * (c * D2))) by (apply Rmult_le_pos; lra). lra. }
  destruct (small_numbers q gr c C8 C9 D1 D0 _ _ _ _ Hq Hq3 Hgr Pc P8 P9 ltac:(lra) ltac:(lra) ltac:(lra) A2 U0 HP1 HN HD) as (G1 & G2 & G3).
  assert (Ec2 : s_cost s2 = sumsq r0) by (rewrite (proj2 S1), (proj2 S0), Ec; auto). rewrite Ec2 in X3.
  destruct X3 as (Y2 & Y3). { rewrite Eq. apply gain_back; lra. }
  split; auto. rewrite Y2, Hc. lra.
Qed.

Lemma never_stuck_dl rad : q <= 1/4 -> 0 < rad -> exists n, forall B cfg s s', dl_quality_min cfg = q ->
  s_assign s = a -> s_cost s = c0 -> length (s_res s) = length r0 -> 0 < s_extra s <= rad -> ~ stuck B (dl_step E cfg cholmod_solve g) n s s'.
Proof.
  intros Hq4 Hrad. destruct rebounds as (delta & Hdelta & HL). assert (Hgw : exists n, rad <= 2 ^ n * delta).
  { destruct (Pow_x_infinity 2 ltac:(rewrite Rabs_pos_eq; lra) (rad / delta)) as (n & Hn). exists n. specialize (Hn n (le_n n)). rewrite Rabs_pos_eq in Hn by (apply pow_le; lra). apply Rge_le in Hn.
    apply (Rmult_le_reg_r (/ delta)); [apply Rinv_0_lt_compat; auto|]. replace (2 ^ n * delta * / delta) with (2 ^ n) by (field; lra). exact Hn. }
  destruct Hgw as (n & Hn).
  exists (n + 3)%nat. intros B cfg s s' Eq Es Ec Hlen Hx H. assert (Hq' : 0 < dl_quality_min cfg) by lra. assert (Hq3' : dl_quality_min cfg <= 3/4) by lra.
  assert (Hrun : forall k t t', s_assign t = a -> s_cost t = c0 -> length (s_res t) = length r0 -> 0 < s_extra t -> stuck B (dl_step E cfg cholmod_solve g) k t t' ->
    s_assign t' = a /\ s_cost t' = c0 /\ length (s_res t') = length r0 /\ 0 < s_extra t' /\ 2 ^ k * s_extra t' = s_extra t).
  { induction k as [|k IH]; intros u u' U1 U2 U3 U4 Hk.
    - apply stuck_nil in Hk. subst u'. split; auto. split; auto. split; auto. split; auto. cbn. ring.
    - destruct (stuck_cons B _ _ _ _ Hk) as (w & K1 & K2 & K3 & K4).
      destruct (one_turn_dl cfg Hq' Hq3' u w U1 U3 U4 K1) as (gn & d & _ & _ & _ & (_ & Hl1 & _) & (_ & X)). specialize (X K2). destruct K2 as (S1 & S2). destruct facts_ok as (_ & Hlr & _).
      assert (Xw : s_extra w = s_extra u / 2) by (destruct X as [X|(_ & X)]; [auto | lra]).
      destruct (IH w u' ltac:(congruence) ltac:(congruence) ltac:(lia) ltac:(lra) K4) as (V1 & V2 & V3 & V4 & V5). split; auto. split; auto. split; auto. split; auto.
      cbn [pow]. lra. }
  destruct (stuck_split B _ n 3 _ _ H) as (w & W1 & W2).
  destruct (Hrun n s w Es Ec Hlen ltac:(lra) W1) as (V1 & V2 & V3 & V4 & V5).
  destruct (stuck_cons B _ _ _ _ W2) as (s1 & A1 & A2 & A3 & A4). destruct (stuck_cons B _ _ _ _ A4) as (s2 & B1 & B2 & B3 & B4). destruct (stuck_cons B _ _ _ _ B4) as (s3 & D1 & D2 & D3 & D4).
  assert (Hw : s_extra w <= delta). { apply (Rmult_le_reg_l (2 ^ n)); [apply pow_lt; lra|]. lra. }
  destruct (HL cfg w s1 s2 s3 Eq V1 V2 V3 ltac:(lra) A1 A2 B1 B2 D1) as (X & _).
  destruct A2 as (_ & A2), B2 as (_ & B2), D2 as (_ & D2). rewrite D2, B2, A2, V2 in X. lra.
Qed.
End State.
