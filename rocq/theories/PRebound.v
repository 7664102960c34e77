(* Dogleg at small radius when the residual kept by the state is that of a rejected proposal. *)
From Coq Require Import List Arith Bool ZArith Lia Reals Lra Psatz Permutation.
From Verif Require Import Num NumR Py Arr MLayout MAssign MNoise MSparse MFactor MGraph MLinear MSolver SpecLayout SpecTree SpecAssign SpecGraph SpecSparse SpecSolver SpecOrder SpecInv SpecDescent SpecRecover.
From Verif Require Import PBase PLayout PAssign PAssign2 PGraph PGraph2 PGraph4 PExGraph PVec PSparse PLinear PGraph5 PSolver PSolver2 PSolverR PJac PHold PInv POrder POrder2 PDescent PExDescent PRecover PRecover2.
Import ListNotations.
Local Open Scope R_scope.

Section Vec.
Variable A : coo R.
Variable F : R.
Variable r0 : list R.
Hypothesis HA : coo_ok A.
Hypothesis HF0 : 0 <= F.
Let n := snd (m_shape A).
Let a := sqrt F.
Hypothesis HF : forall x, length x = n -> sumsq (mapply A x) <= F * sumsq x.
Hypothesis Hr0 : length r0 = fst (m_shape A).
Let G0 := mapply (transpose A) r0.
Variable mu : R.
Hypothesis Hmu : 0 < mu.

Lemma a_pos : 0 <= a. Proof. apply sqrt_pos. Qed.
Lemma HFn x : length x = n -> vnorm (mapply A x) <= a * vnorm x.
Proof.
  intros Hx. destruct (vnorm_sq x) as (X0 & X1). apply norm_from; [apply Rmult_le_pos; auto; apply a_pos|].
  replace (a * vnorm x * (a * vnorm x)) with ((a * a) * (vnorm x * vnorm x)) by ring. unfold a. rewrite sqrt_sqrt, X1 by auto. apply HF; auto.
Qed.

(* the whole step is along the gradient *)
Lemma cauchy_branch rho gn rad : length rho = fst (m_shape A) -> 0 < rad -> let sd := mapply (transpose A) (vneg rho) in
  normal_ok A mu sd gn -> rad * (F + mu) < vnorm sd -> dogleg_step_of sd (mapply A sd) gn rad = vscale (rad / vnorm sd) sd.
Proof.
  intros Hl Hrad sd Hn Hsm. pose proof Hn as (Hgn & _). fold n in Hgn. assert (Hsd : length sd = n) by apply mapply_length.
  assert (Hlr : length (vneg rho) = fst (m_shape A)) by (rewrite vneg_length; auto).
  assert (Hpos : 0 < rad * (F + mu)) by (apply Rmult_lt_0_compat; lra). destruct (vnorm_sq sd) as (S0 & S1).
  assert (Hnz : sd <> vzero n).
  { intros Hz. assert (vnorm sd = 0) by (apply vnorm_eq; [lra|]; rewrite Hz; rewrite (proj2 (sumsq_zero (vzero n))); [ring | rewrite vzero_length; auto]). lra. }
  destruct (steepest_defined A (vneg rho) HA Hlr Hnz) as (Hp & _). fold sd in Hp.
  assert (Hgl : vnorm sd <= (F + mu) * vnorm gn).
  { assert (Hlb : length sd = snd (m_shape A)) by exact Hsd.
    assert (Hw := proj1 (normal_weak A mu HA sd gn Hlb Hgn) Hn sd Hsd). rewrite <- sumsq_dot, <- S1 in Hw.
    pose proof (dot_le_norms (mapply A sd) (mapply A gn) ltac:(rewrite !mapply_length; auto)) as H1.
    pose proof (dot_le_norms sd gn ltac:(lia)) as H2. pose proof (HFn sd Hsd) as H3. pose proof (HFn gn Hgn) as H4.
    destruct (vnorm_sq gn) as (N0 & _). destruct (vnorm_sq (mapply A gn)) as (N1 & _). destruct (vnorm_sq (mapply A sd)) as (N2 & _). pose proof a_pos as Ap.
    assert (H5 : vnorm (mapply A sd) * vnorm (mapply A gn) <= (a * vnorm sd) * (a * vnorm gn)) by (apply Rmult_le_compat; auto).
    assert (Haa : a * a = F) by (unfold a; apply sqrt_sqrt; auto).
    replace (a * vnorm sd * (a * vnorm gn)) with (F * (vnorm sd * vnorm gn)) in H5 by (rewrite <- Haa; ring).
    assert (mu * vdot sd gn <= mu * (vnorm sd * vnorm gn)) by (apply Rmult_le_compat_l; lra).
    apply (Rmult_le_reg_l (vnorm sd)); [lra|]. lra. }
  assert (Hgr : rad < vnorm gn).
  { destruct (Rle_lt_dec (vnorm gn) rad) as [Hle|]; auto. exfalso. assert ((F + mu) * vnorm gn <= (F + mu) * rad) by (apply Rmult_le_compat_l; lra). lra. }
  destruct (dogleg_step_ok sd (mapply A sd) gn rad Hrad ltac:(lia) ltac:(left; lra)) as (_ & _ & _ & C2 & _).
  set (p := sumsq (mapply A sd)) in *. set (alpha := sumsq sd / p) in *.
  assert (Hs : 0 < sumsq sd) by (rewrite <- S1; apply Rmult_lt_0_compat; lra).
  assert (Hal : 0 < alpha) by (apply Rdiv_lt_0_compat; auto). assert (Hap : alpha * p = sumsq sd) by (unfold alpha; field; lra).
  assert (Na : vnorm (vscale alpha sd) = alpha * vnorm sd). { apply vnorm_eq; [apply Rmult_le_pos; lra|]. rewrite sumsq_scale, <- S1. ring. }
  assert (HaF : 1 <= alpha * F). { apply (Rmult_le_reg_r (sumsq sd)); auto. pose proof (HF sd Hsd) as H1. fold p in H1. assert (alpha * p <= alpha * (F * sumsq sd)) by (apply Rmult_le_compat_l; lra). lra. }
  rewrite C2.
  - apply (nth_ext' _ _ 0); [rewrite !vscale_length; auto|]. intros i _. rewrite Na, !nth_vscale. field. split; lra.
  - auto.
  - rewrite Na. destruct (Rle_lt_dec rad (alpha * vnorm sd)) as [|Hc]; auto. exfalso.
    assert (F * (alpha * vnorm sd) <= F * rad) by (apply Rmult_le_compat_l; lra). assert (1 * vnorm sd <= alpha * F * vnorm sd) by (apply Rmult_le_compat_r; auto).
    assert (0 < rad * mu) by (apply Rmult_lt_0_compat; auto). lra.
Qed.

(* and nearly against the true gradient *)
Lemma cauchy_dir rho rad om : length rho = fst (m_shape A) -> 0 < rad -> let sd := mapply (transpose A) (vneg rho) in
  a * vnorm (vsub rho r0) <= om -> om < vnorm G0 ->
  vnorm G0 - om <= vnorm sd /\ - rad * vnorm G0 <= vdot r0 (mapply A (vscale (rad / vnorm sd) sd)) <= - rad * (vnorm G0 - 2 * om).
Proof.
  intros Hl Hrad sd Hom HG. assert (Hsd : length sd = n) by apply mapply_length. assert (HGl : length G0 = n) by apply mapply_length. assert (HT := transpose_ok A HA).
  set (w := mapply (transpose A) (vsub rho r0)). assert (Hw : length w = n) by apply mapply_length.
  assert (Hlw : length (vsub rho r0) = fst (m_shape A)) by (rewrite vsub_length; lia).
  assert (Nw : vnorm w <= om). { eapply Rle_trans; [|exact Hom]. apply (back_norm A a HA a_pos HFn); auto. }
  assert (Ew : vneg sd = vadd G0 w).
  { apply (vec_ext n); rewrite ?vneg_length, ?vadd_length; auto; try lia. intros y Hy. rewrite vdot_neg_r, vdot_add_r by lia. unfold sd, G0, w.
    rewrite <- !mapply_adjoint by (auto; rewrite ?vneg_length; auto). rewrite vdot_neg_r, vdot_sub_r by lia. lra. }
  assert (Nsd : vnorm (vneg sd) = vnorm sd). { destruct (vnorm_sq sd). apply vnorm_eq; auto. rewrite sumsq_neg. auto. }
  assert (Eg : G0 = vadd (vneg sd) (vneg w)).
  { apply (nth_ext' _ _ 0); [rewrite vadd_length; rewrite ?vneg_length; lia|]. intros i Hi. rewrite nth_vadd by (rewrite !vneg_length; lia). rewrite Ew, nth_vadd by lia.
    assert (En : nth i (vneg w) 0 = - nth i w 0). { unfold vneg. rewrite (nth_map' _ _ _ 0 0) by lia. reflexivity. } rewrite En. lra. }
  assert (Nnw : vnorm (vneg w) = vnorm w). { destruct (vnorm_sq w). apply vnorm_eq; auto. rewrite sumsq_neg. auto. }
  assert (Hlow : vnorm G0 - om <= vnorm sd).
  { assert (vnorm G0 <= vnorm (vneg sd) + vnorm (vneg w)) by (rewrite Eg at 1; apply norm_add; rewrite !vneg_length; lia). lra. }
  split; auto. set (t := rad / vnorm sd). assert (Hsp : 0 < vnorm sd) by lra. assert (Ht : t * vnorm sd = rad) by (unfold t; field; lra). assert (Ht0 : 0 < t) by (apply Rdiv_lt_0_compat; auto).
  rewrite mapply_scale by auto. rewrite vdot_scale_r, (vdot_comm r0), mapply_adjoint by auto. fold G0.
  assert (Hgs : vdot sd G0 = - sumsq sd - vdot sd w).
  { rewrite Eg, vdot_add_r by (rewrite !vneg_length; lia). rewrite !vdot_neg_r, <- sumsq_dot. lra. }
  pose proof (dot_abs sd w ltac:(lia)) as H1. apply abs_inv in H1. pose proof (dot_abs sd G0 ltac:(lia)) as H2. apply abs_inv in H2.
  destruct (vnorm_sq sd) as (S0 & S1). assert (vnorm sd * vnorm w <= vnorm sd * om) by (apply Rmult_le_compat_l; auto).
  split.
  - assert (t * (- (vnorm sd * vnorm G0)) <= t * vdot sd G0) by (apply Rmult_le_compat_l; lra). replace (t * - (vnorm sd * vnorm G0)) with (- (t * vnorm sd) * vnorm G0) in H0 by ring. rewrite Ht in H0. lra.
  - assert (Hb : vdot sd G0 <= - (vnorm sd * (vnorm sd - om))) by lra. apply (Rmult_le_compat_l t) in Hb; [|lra].
    replace (t * - (vnorm sd * (vnorm sd - om))) with (- ((t * vnorm sd) * (vnorm sd - om))) in Hb by ring. rewrite Ht in Hb.
    assert (rad * (vnorm G0 - 2 * om) <= rad * (vnorm sd - om)) by (apply Rmult_le_compat_l; lra). lra.
Qed.
End Vec.

Section Numbers.
Variables (q g c C8 C9 D1 D0 P P' N D : R).
Hypothesis Hq : 0 < q.
Hypothesis Hq3 : 3 * q < 1.
Hypothesis Hg : 0 < g.
Hypothesis Hc : 0 <= c.
Hypothesis H8 : 0 <= C8.
Hypothesis H9 : 0 <= C9.
Hypothesis HD0 : 0 < D0.
Hypothesis Hle : D0 <= D1.
Hypothesis H2 : D1 <= 2 * D0.
Hypothesis Hsm : (4 * c + C8 + 2 * C9) * D1 < g * (1 - 3 * q).
Hypothesis HP : - D0 * g <= P <= - D0 * (g - 2 * (c * D1)).
Hypothesis HP' : - D1 * g <= P' <= 0.
Hypothesis HN : Rabs (N - 2 * P) <= C8 * (D0 * D0).
Hypothesis HD : Rabs (D - 2 * P - 2 * P') <= C9 * (D1 * D1).

Lemma small_numbers : D < 0 /\ N < 0 /\ N <= q * D.
Proof.
  apply abs_inv in HN, HD.
  assert (E1 : 0 <= c * D1) by (apply Rmult_le_pos; lra). assert (E8 : 0 <= C8 * D1) by (apply Rmult_le_pos; lra). assert (E9 : 0 <= C9 * D1) by (apply Rmult_le_pos; lra).
  assert (Hth : g * (1 - 3 * q) <= g) by nra.
  assert (T1 : 4 * (c * D1) + C8 * D1 + 2 * (C9 * D1) < g * (1 - 3 * q)) by lra.
  assert (T2 : C9 * (D1 * D1) <= 2 * (D0 * (C9 * D1))). { replace (2 * (D0 * (C9 * D1))) with (C9 * D1 * (2 * D0)) by ring. replace (C9 * (D1 * D1)) with (C9 * D1 * D1) by ring. apply Rmult_le_compat_l; lra. }
  assert (T3 : C8 * (D0 * D0) <= D0 * (C8 * D1)). { replace (D0 * (C8 * D1)) with (C8 * D0 * D1) by ring. replace (C8 * (D0 * D0)) with (C8 * D0 * D0) by ring. apply Rmult_le_compat_l; auto. apply Rmult_le_pos; lra. }
  assert (T4 : D0 * (4 * (c * D1) + C8 * D1 + 2 * (C9 * D1)) < D0 * (g * (1 - 3 * q))) by (apply Rmult_lt_compat_l; auto).
  assert (F1 : 0 <= D0 * (c * D1)) by (apply Rmult_le_pos; lra). assert (F8 : 0 <= D0 * (C8 * D1)) by (apply Rmult_le_pos; lra). assert (F9 : 0 <= D0 * (C9 * D1)) by (apply Rmult_le_pos; lra).
  assert (T5 : D0 * (g * (1 - 3 * q)) <= D0 * g) by (apply Rmult_le_compat_l; lra). assert (Dg : 0 < D0 * g) by (apply Rmult_lt_0_compat; auto).
  split; [lra|]. split; [lra|].
  assert (B1 : - 6 * (D0 * g) - 2 * (D0 * (C9 * D1)) <= D). { assert (D1 * g <= 2 * D0 * g) by (apply Rmult_le_compat_r; lra). lra. }
  assert (B2 : q * (- 6 * (D0 * g) - 2 * (D0 * (C9 * D1))) <= q * D) by (apply Rmult_le_compat_l; lra).
  assert (B3 : q * (D0 * (C9 * D1)) <= 1 * (D0 * (C9 * D1))) by (apply Rmult_le_compat_r; lra).
  assert (B4 : D0 * (g * (1 - 3 * q)) = D0 * g - 3 * (q * (D0 * g))) by ring. lra.
Qed.
End Numbers.
