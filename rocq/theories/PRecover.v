(* Levenberg-Marquardt at large damping when the residual kept by the state is that of a
   rejected proposal. *)
From Coq Require Import List Arith Bool ZArith Lia Reals Lra Psatz Permutation.
From Verif Require Import Num NumR Py Arr MLayout MAssign MNoise MSparse MFactor MGraph MLinear MSolver SpecLayout SpecTree SpecAssign SpecGraph SpecSparse SpecSolver SpecOrder SpecInv SpecDescent.
From Verif Require Import PBase PLayout PAssign PAssign2 PGraph PGraph2 PGraph4 PExGraph PVec PSparse PLinear PGraph5 PSolver PSolver2 PSolverR PJac PHold PInv POrder POrder2 PDescent.
Import ListNotations.
Local Open Scope R_scope.

Lemma dot_abs (a b : list R) : length a = length b -> Rabs (vdot a b) <= vnorm a * vnorm b.
Proof.
  intros Hl. pose proof (dot_le_norms a b Hl) as H1. pose proof (dot_le_norms (vneg a) b ltac:(rewrite vneg_length; auto)) as H2.
  rewrite vdot_neg_l in H2. assert (E : vnorm (vneg a) = vnorm a).
  { destruct (vnorm_sq a). apply vnorm_eq; auto. rewrite sumsq_neg. auto. }
  rewrite E in H2. apply Rabs_le. lra.
Qed.
Lemma norm_from (a : list R) (x : R) : 0 <= x -> sumsq a <= x * x -> vnorm a <= x.
Proof. intros Hx H. destruct (vnorm_sq a) as (H0 & H1). nra. Qed.
Lemma norm_add (a b : list R) : length a = length b -> vnorm (vadd a b) <= vnorm a + vnorm b.
Proof. intros Hl. destruct (vnorm_sq a), (vnorm_sq b). apply norm_from; [lra|]. apply norm_triangle; auto. Qed.

Section Vec.
Variable A : coo R.
Variable a : R.
Variable r0 : list R.
Hypothesis HA : coo_ok A.
Hypothesis Ha : 0 <= a.
Let n := snd (m_shape A).
Hypothesis HF : forall x, length x = n -> vnorm (mapply A x) <= a * vnorm x.
Hypothesis Hr0 : length r0 = fst (m_shape A).
Let G0 := mapply (transpose A) r0.

Lemma back_norm y : length y = fst (m_shape A) -> vnorm (mapply (transpose A) y) <= a * vnorm y.
Proof.
  intros Hy. set (z := mapply (transpose A) y). assert (Hz : length z = n) by apply mapply_length.
  destruct (vnorm_sq z) as (Z0 & Z1). destruct (vnorm_sq y) as (Y0 & _).
  assert (H1 : vdot (mapply A z) y = sumsq z) by (rewrite mapply_adjoint by auto; fold z; rewrite sumsq_dot; auto).
  pose proof (dot_le_norms (mapply A z) y ltac:(rewrite mapply_length; auto)) as H2. rewrite H1, <- Z1 in H2.
  pose proof (HF z Hz) as H3.
  destruct (Req_dec (vnorm z) 0) as [E|E]; [rewrite E; apply Rmult_le_pos; auto|].
  assert (0 < vnorm z) by lra. apply (Rmult_le_reg_l (vnorm z)); auto.
  assert (vnorm (mapply A z) * vnorm y <= a * vnorm z * vnorm y) by (apply Rmult_le_compat_r; auto). lra.
Qed.

Lemma step_weak be rho d : 0 < be -> length rho = fst (m_shape A) -> normal_ok A be (mapply (transpose A) (vneg rho)) d -> length d = n /\
  forall y, length y = n -> vdot (mapply A y) (mapply A d) + be * vdot y d = - vdot (mapply A y) rho.
Proof.
  intros Hb Hl Hn. pose proof Hn as (Hd & _). split; auto. intros y Hy.
  assert (Hlb : length (mapply (transpose A) (vneg rho)) = snd (m_shape A)) by apply mapply_length.
  rewrite (proj1 (normal_weak A be HA _ d Hlb Hd) Hn y Hy).
  rewrite <- mapply_adjoint by (auto; rewrite vneg_length; auto). rewrite vdot_neg_r. auto.
Qed.
Lemma step_norm be rho d : 0 < be -> length rho = fst (m_shape A) -> normal_ok A be (mapply (transpose A) (vneg rho)) d ->
  be * vnorm d <= a * vnorm rho.
Proof.
  intros Hb Hl Hn. destruct (step_weak be rho d Hb Hl Hn) as (Hd & Hw). specialize (Hw d Hd). rewrite <- !sumsq_dot in Hw.
  pose proof (dot_abs (mapply A d) rho ltac:(rewrite mapply_length; auto)) as H1.
  assert (H2 : - vdot (mapply A d) rho <= vnorm (mapply A d) * vnorm rho) by (eapply Rle_trans; [|exact H1]; rewrite <- Rabs_Ropp; apply Rle_abs).
  pose proof (HF d Hd) as H3. destruct (vnorm_sq d) as (D0 & D1). destruct (vnorm_sq rho) as (R0 & _). pose proof (sumsq_nonneg (mapply A d)).
  assert (H4 : vnorm (mapply A d) * vnorm rho <= a * vnorm d * vnorm rho) by (apply Rmult_le_compat_r; auto).
  destruct (Req_dec (vnorm d) 0) as [E|E]; [rewrite E, Rmult_0_r; apply Rmult_le_pos; auto|].
  assert (0 < vnorm d) by lra. apply (Rmult_le_reg_l (vnorm d)); auto. rewrite <- D1 in Hw. lra.
Qed.
Lemma step_dir be rho d : 0 < be -> length rho = fst (m_shape A) -> normal_ok A be (mapply (transpose A) (vneg rho)) d ->
  Rabs (be * vdot r0 (mapply A d) + sumsq G0) <= a * vnorm G0 * (vnorm (vsub rho r0) + a * vnorm d).
Proof.
  intros Hb Hl Hn. destruct (step_weak be rho d Hb Hl Hn) as (Hd & Hw). assert (HG : length G0 = n) by apply mapply_length.
  specialize (Hw G0 HG). assert (E1 : vdot G0 d = vdot r0 (mapply A d)).
  { rewrite (vdot_comm r0), mapply_adjoint by auto. fold G0. apply vdot_comm. }
  assert (E2 : vdot (mapply A G0) r0 = sumsq G0) by (rewrite mapply_adjoint by auto; fold G0; rewrite sumsq_dot; auto).
  assert (E3 : vdot (mapply A G0) (vsub rho r0) = vdot (mapply A G0) rho - vdot (mapply A G0) r0) by (apply vdot_sub_r; lia).
  rewrite E1 in Hw.
  replace (be * vdot r0 (mapply A d) + sumsq G0) with (- (vdot (mapply A G0) (vsub rho r0) + vdot (mapply A G0) (mapply A d))) by lra.
  rewrite Rabs_Ropp. eapply Rle_trans; [apply Rabs_triang|].
  pose proof (dot_abs (mapply A G0) (vsub rho r0) ltac:(rewrite mapply_length, vsub_length; lia)) as H1.
  pose proof (dot_abs (mapply A G0) (mapply A d) ltac:(rewrite !mapply_length; auto)) as H2.
  pose proof (HF G0 HG) as H3. pose proof (HF d Hd) as H4.
  destruct (vnorm_sq (vsub rho r0)) as (N1 & _). destruct (vnorm_sq (mapply A d)) as (N2 & _). destruct (vnorm_sq G0) as (N3 & _).
  assert (vnorm (mapply A G0) * vnorm (vsub rho r0) <= a * vnorm G0 * vnorm (vsub rho r0)) by (apply Rmult_le_compat_r; auto).
  assert (vnorm (mapply A G0) * vnorm (mapply A d) <= a * vnorm G0 * vnorm (mapply A d)) by (apply Rmult_le_compat_r; auto).
  assert (a * vnorm G0 * vnorm (mapply A d) <= a * vnorm G0 * (a * vnorm d)) by (apply Rmult_le_compat_l; auto; apply Rmult_le_pos; auto).
  lra.
Qed.

Variable K : R.
Hypothesis HK : 0 <= K.
(* r is the residual after the step d *)
Definition lands d r : Prop := length d = n /\ length r = fst (m_shape A) /\ vnorm (vsub r (vadd (mapply A d) r0)) <= K * sumsq d.

Lemma land_move d r : lands d r -> vnorm (vsub r r0) <= a * vnorm d + K * sumsq d /\
  Rabs (vdot r0 (vsub r r0) - vdot r0 (mapply A d)) <= vnorm r0 * (K * sumsq d).
Proof.
  intros (Hd & Hr & He). set (e := vsub r (vadd (mapply A d) r0)) in *.
  assert (HlA : length (mapply A d) = length r0) by (rewrite mapply_length; auto).
  assert (Hle : length e = length r0) by (unfold e; rewrite vsub_length; rewrite ?vadd_length; lia).
  assert (Ee : vsub r r0 = vadd (mapply A d) e).
  { apply (nth_ext' _ _ 0); [rewrite vsub_length, vadd_length; lia|]. intros i Hi. rewrite vsub_length in Hi by lia. unfold e.
    rewrite nth_vsub by lia. rewrite nth_vadd by (unfold e in Hle; lia). rewrite nth_vsub by (rewrite vadd_length; lia). rewrite nth_vadd by lia. lra. }
  rewrite Ee. split.
  - eapply Rle_trans; [apply norm_add; lia|]. pose proof (HF d Hd). lra.
  - rewrite vdot_add_r by lia. replace (vdot r0 (mapply A d) + vdot r0 e - vdot r0 (mapply A d)) with (vdot r0 e) by lra.
    eapply Rle_trans; [apply dot_abs; lia|]. apply Rmult_le_compat_l; auto. apply vnorm_sq.
Qed.
Lemma move_change w : length w = length r0 -> sumsq (vadd w r0) - sumsq r0 = 2 * vdot r0 w + sumsq w.
Proof. intros Hw. rewrite sumsq_add by auto. rewrite (vdot_comm w r0). lra. Qed.

(* the change of the cost, and the change of the model built on the stale residual r', after a
   step d' from r0 had led to r' *)
Lemma cost_change d r : lands d r -> Rabs (sumsq r - sumsq r0 - 2 * vdot r0 (mapply A d)) <=
  2 * (vnorm r0 * (K * sumsq d)) + (a * vnorm d + K * sumsq d) * (a * vnorm d + K * sumsq d).
Proof.
  intros HL. pose proof HL as (Hd & Hr & _). destruct (land_move d r HL) as (H1 & H2).
  assert (Er : r = vadd (vsub r r0) r0).
  { apply (nth_ext' _ _ 0); [rewrite vadd_length; rewrite vsub_length; lia|]. intros i Hi. rewrite nth_vadd by (rewrite vsub_length; lia). rewrite nth_vsub by lia. lra. }
  rewrite Er at 1. rewrite move_change by (rewrite vsub_length; lia). destruct (vnorm_sq (vsub r r0)) as (N0 & N1). rewrite <- N1.
  replace (2 * vdot r0 (vsub r r0) + vnorm (vsub r r0) * vnorm (vsub r r0) - 2 * vdot r0 (mapply A d)) with
    (2 * (vdot r0 (vsub r r0) - vdot r0 (mapply A d)) + vnorm (vsub r r0) * vnorm (vsub r r0)) by lra.
  eapply Rle_trans; [apply Rabs_triang|]. rewrite Rabs_mult, (Rabs_pos_eq 2), (Rabs_pos_eq (_ * _)) by (try apply Rle_0_sqr; lra).
  assert (vnorm (vsub r r0) * vnorm (vsub r r0) <= (a * vnorm d + K * sumsq d) * (a * vnorm d + K * sumsq d)) by (apply Rmult_le_compat; auto). lra.
Qed.
Lemma model_change' d d' r' : length d = n -> lands d' r' ->
  Rabs (sumsq (vadd (mapply A d) r') - sumsq r0 - 2 * vdot r0 (mapply A d) - 2 * vdot r0 (mapply A d')) <=
  2 * (vnorm r0 * (K * sumsq d')) + (a * vnorm d + (a * vnorm d' + K * sumsq d')) * (a * vnorm d + (a * vnorm d' + K * sumsq d')).
Proof.
  intros Hd HL. pose proof HL as (Hd' & Hr & _). destruct (land_move d' r' HL) as (H1 & H2).
  assert (HlA : length (mapply A d) = length r0) by (rewrite mapply_length; auto).
  set (w := vadd (mapply A d) (vsub r' r0)). assert (Hlw : length w = length r0) by (unfold w; rewrite vadd_length; rewrite ?vsub_length; lia).
  assert (Er : vadd (mapply A d) r' = vadd w r0).
  { apply (nth_ext' _ _ 0); [rewrite !vadd_length; lia|]. intros i Hi. rewrite vadd_length in Hi by lia. rewrite nth_vadd by lia. rewrite (nth_vadd w) by lia. unfold w. rewrite nth_vadd by (rewrite vsub_length; lia). rewrite nth_vsub by lia. lra. }
  rewrite Er, move_change by auto.
  assert (Ew : vdot r0 w = vdot r0 (mapply A d) + vdot r0 (vsub r' r0)) by (unfold w; apply vdot_add_r; rewrite vsub_length; lia).
  destruct (vnorm_sq w) as (N0 & N1). rewrite <- N1.
  assert (Hw : vnorm w <= a * vnorm d + (a * vnorm d' + K * sumsq d')).
  { unfold w. eapply Rle_trans; [apply norm_add; rewrite vsub_length; lia|]. pose proof (HF d Hd). lra. }
  rewrite Ew. replace (2 * (vdot r0 (mapply A d) + vdot r0 (vsub r' r0)) + vnorm w * vnorm w - 2 * vdot r0 (mapply A d) - 2 * vdot r0 (mapply A d')) with
    (2 * (vdot r0 (vsub r' r0) - vdot r0 (mapply A d')) + vnorm w * vnorm w) by lra.
  eapply Rle_trans; [apply Rabs_triang|]. rewrite Rabs_mult, (Rabs_pos_eq 2), (Rabs_pos_eq (_ * _)) by (try apply Rle_0_sqr; lra).
  assert (vnorm w * vnorm w <= (a * vnorm d + (a * vnorm d' + K * sumsq d')) * (a * vnorm d + (a * vnorm d' + K * sumsq d'))) by (apply Rmult_le_compat; auto). lra.
Qed.
End Vec.

(* ---- scalars ---- *)
Lemma grow a K x C u : 0 <= a -> 0 <= K -> 0 <= x -> 0 <= C -> 0 <= u <= 1 -> x <= C * u -> a * x + K * (x * x) <= (a * C + K * (C * C)) * u.
Proof.
  intros Ha HK Hx HC Hu H. assert (H1 : x * x <= (C * u) * (C * u)) by (apply Rmult_le_compat; auto).
  assert (H2 : (C * u) * (C * u) <= C * C * u).
  { assert (u * u <= u * 1) by (apply Rmult_le_compat_l; lra). replace (C * u * (C * u)) with (C * C * (u * u)) by ring.
    apply Rmult_le_compat_l; [apply Rle_0_sqr | lra]. }
  assert (a * x <= a * (C * u)) by (apply Rmult_le_compat_l; auto). assert (K * (x * x) <= K * (C * C * u)) by (apply Rmult_le_compat_l; lra). lra.
Qed.
Lemma by_inv b x y : 0 < b -> b * x <= y -> x <= y * / b.
Proof. intros Hb H. apply (Rmult_le_reg_l b); auto. replace (b * (y * / b)) with y by (field; lra). auto. Qed.
Lemma inv_ratio f b b' : 0 < b -> 0 < b' -> b <= f * b' -> / b' <= f * / b.
Proof.
  intros Hb Hb' H. apply (Rmult_le_reg_l (b * b')); [apply Rmult_lt_0_compat; auto|].
  replace (b * b' * / b') with b by (field; lra). replace (b * b' * (f * / b)) with (f * b') by (field; lra). auto.
Qed.

Lemma abs_inv x y : Rabs x <= y -> - y <= x <= y.
Proof. intros H. pose proof (Rle_abs x). pose proof (Rle_abs (- x)). rewrite Rabs_Ropp in *. lra. Qed.
Lemma from_scaled b u P G C : 0 < u -> b * u = 1 -> - (C * u) <= b * P + G <= C * u -> - G * u - C * (u * u) <= P <= - G * u + C * (u * u).
Proof.
  intros Hu Hbu (H1 & H2). assert (E : P = u * (b * P)) by (rewrite <- Rmult_assoc, (Rmult_comm u b), Hbu; ring).
  apply (Rmult_le_compat_l u) in H1; [|lra]. apply (Rmult_le_compat_l u) in H2; [|lra]. lra.
Qed.

Section Numbers.
(* P, P': r0 . A d for the new and the previous step; the change of the cost is N, that of the
   model D *)
Variables (f q G C6 C7 C8 C9 b b' P P' N D : R).
Hypothesis Hf : 1 <= f.
Hypothesis Hq : 0 < q.
Hypothesis Hqf : q * (1 + f) < 1.
Hypothesis HG : 0 < G.
Hypothesis H6 : 0 <= C6.
Hypothesis H7 : 0 <= C7.
Hypothesis H8 : 0 <= C8.
Hypothesis H9 : 0 <= C9.
Let tot := 4 * C6 + 2 * (f * f * C7) + C8 + C9 + 1.
Let L := 1 + tot / (G * (1 - q * (1 + f))).
Hypothesis Hb : L <= b.
Hypothesis Hb' : L <= b'.
Hypothesis Hr : b <= f * b'.
Hypothesis HP : Rabs (b * P + G) <= C6 * / b.
Hypothesis HP' : Rabs (b' * P' + G) <= C7 * / b'.
Hypothesis HN : Rabs (N - 2 * P) <= C8 * (/ b * / b).
Hypothesis HD : Rabs (D - 2 * P - 2 * P') <= C9 * (/ b * / b).

Lemma numbers : D < 0 /\ N < 0 /\ N <= q * D.
Proof.
  set (th := 1 - q * (1 + f)) in *. assert (Hth : 0 < th) by (unfold th; lra).
  assert (Hq1 : q < 1) by nra. assert (Hth1 : th < 1) by (unfold th; nra).
  assert (Hff : 1 <= f * f) by nra. assert (H77 : C7 <= f * f * C7) by nra.
  assert (Htot : 1 <= tot) by (unfold tot; assert (0 <= f * f * C7) by lra; lra).
  assert (HGt : 0 < G * th) by (apply Rmult_lt_0_compat; auto).
  assert (HL1 : 1 <= L). { unfold L. assert (0 < tot / (G * th)) by (apply Rdiv_lt_0_compat; lra). lra. }
  assert (Hsm : forall x, L <= x -> tot * / x < G * th).
  { intros x Hx. apply (Rmult_lt_reg_l x); [lra|]. replace (x * (tot * / x)) with tot by (field; lra).
    apply (Rlt_le_trans _ (L * (G * th))); [|apply Rmult_le_compat_r; lra].
    unfold L. replace ((1 + tot / (G * th)) * (G * th)) with (G * th + tot) by (field; split; lra). lra. }
  pose proof (Hsm b Hb) as Sb. pose proof (Hsm b' Hb') as Sb'.
  assert (Hb0 : 0 < b) by lra. assert (Hb'0 : 0 < b') by lra.
  pose proof (inv_ratio f b b' Hb0 Hb'0 Hr) as Hu. set (u := / b) in *. set (u' := / b') in *.
  assert (Hbu : b * u = 1) by (unfold u; field; lra). assert (Hbu' : b' * u' = 1) by (unfold u'; field; lra).
  assert (Hu0 : 0 < u) by (apply Rinv_0_lt_compat; auto). assert (Hu0' : 0 < u') by (apply Rinv_0_lt_compat; auto).
  assert (HGt1 : G * th < G) by nra.
  apply abs_inv in HP, HP', HN, HD.
  destruct (from_scaled b u P G C6 Hu0 Hbu HP) as (P2 & P1). destruct (from_scaled b' u' P' G C7 Hu0' Hbu' HP') as (P4 & P3).
  assert (Huu : u' * u' <= f * f * (u * u)). { replace (f * f * (u * u)) with ((f * u) * (f * u)) by ring. apply Rmult_le_compat; lra. }
  assert (T7 : C7 * (u' * u') <= f * f * C7 * (u * u)). { replace (f * f * C7 * (u * u)) with (C7 * (f * f * (u * u))) by ring. apply Rmult_le_compat_l; auto. }
  assert (TT : tot * (u * u) < G * th * u) by (replace (tot * (u * u)) with (tot * u * u) by ring; apply Rmult_lt_compat_r; auto).
  assert (Huu0 : 0 < u * u) by (apply Rmult_lt_0_compat; auto).
  assert (E6 : 0 <= C6 * (u * u)) by (apply Rmult_le_pos; lra). assert (E7 : 0 <= f * f * C7 * (u * u)) by (apply Rmult_le_pos; lra).
  assert (E8 : 0 <= C8 * (u * u)) by (apply Rmult_le_pos; lra). assert (E9 : 0 <= C9 * (u * u)) by (apply Rmult_le_pos; lra).
  assert (Etot : tot * (u * u) = 4 * (C6 * (u * u)) + 2 * (f * f * C7 * (u * u)) + C8 * (u * u) + C9 * (u * u) + u * u) by (unfold tot; ring).
  assert (TG : G * th * u < G * u) by (apply Rmult_lt_compat_r; auto).
  assert (P5 : P' <= 0).
  { assert (C7 * u' <= tot * u') by (apply Rmult_le_compat_r; [lra|]; unfold tot; lra). assert (u' * (C7 * u') <= u' * G) by (apply Rmult_le_compat_l; lra). lra. }
  assert (Gu : G * u' <= G * (f * u)) by (apply Rmult_le_compat_l; lra).
  split; [lra|]. split; [lra|].
  assert (D1 : - 2 * G * u * (1 + f) - (2 * (C6 * (u * u)) + 2 * (f * f * C7 * (u * u)) + C9 * (u * u)) <= D) by lra.
  set (X := 2 * (C6 * (u * u)) + 2 * (f * f * C7 * (u * u)) + C9 * (u * u)) in *.
  assert (HX : 0 <= X) by (unfold X; lra). assert (HqX : q * X <= X) by nra.
  assert (D2 : q * (- 2 * G * u * (1 + f) - X) <= q * D) by (apply Rmult_le_compat_l; lra).
  assert (D3 : q * (- 2 * G * u * (1 + f) - X) = - 2 * G * u + 2 * (G * th * u) - q * X) by (unfold th; ring).
  unfold X in *. lra.
Qed.
End Numbers.

Ltac npos := match goal with |- 0 <= _ * _ => apply Rmult_le_pos; npos | |- 0 <= _ + _ => apply Rplus_le_le_0_compat; npos | _ => first [assumption | lra] end.

Section Recover.
Variable A : coo R.
Variables a K f q B : R.
Variable r0 : list R.
Hypothesis HA : coo_ok A.
Hypothesis Ha : 0 <= a.
Hypothesis HF : forall x, length x = snd (m_shape A) -> vnorm (mapply A x) <= a * vnorm x.
Hypothesis Hr0 : length r0 = fst (m_shape A).
Hypothesis HK : 0 <= K.
Hypothesis Hf : 1 <= f.
Hypothesis Hq : 0 < q.
Hypothesis Hqf : q * (1 + f) < 1.
Hypothesis HB : 0 <= B.
Hypothesis HG : 0 < sumsq (mapply (transpose A) r0).

Lemma recover_vec : exists L, 1 <= L /\ forall b2 b1 b0 rho2 d2 rho1 d1 rho0 d0 r,
  L <= b2 -> L <= b1 -> L <= b0 -> b1 <= f * b2 -> b0 <= f * b1 -> length rho2 = fst (m_shape A) -> vnorm rho2 <= B ->
  normal_ok A b2 (mapply (transpose A) (vneg rho2)) d2 -> lands A r0 K d2 rho1 ->
  normal_ok A b1 (mapply (transpose A) (vneg rho1)) d1 -> lands A r0 K d1 rho0 ->
  normal_ok A b0 (mapply (transpose A) (vneg rho0)) d0 -> lands A r0 K d0 r ->
  sumsq (vadd (mapply A d0) rho0) < sumsq r0 /\ sumsq r < sumsq r0 /\
  q * (sumsq r0 - sumsq (vadd (mapply A d0) rho0)) <= sumsq r0 - sumsq r.
Proof.
  set (G0 := mapply (transpose A) r0) in *. set (R0 := vnorm r0). assert (HR0 : 0 <= R0) by apply vnorm_sq. assert (Hg0 : 0 <= vnorm G0) by apply vnorm_sq.
  set (C1 := a * B * f). set (C2 := a * C1 + K * (C1 * C1)). set (C3 := a * (R0 + C2)). set (C4 := a * C3 + K * (C3 * C3)). set (C5 := a * (R0 + C4)).
  assert (P1 : 0 <= C1) by (unfold C1; npos).
  assert (P2 : 0 <= C2) by (unfold C2; npos).
  assert (P3 : 0 <= C3) by (unfold C3; apply Rmult_le_pos; lra).
  assert (P4 : 0 <= C4) by (unfold C4; npos).
  assert (P5 : 0 <= C5) by (unfold C5; apply Rmult_le_pos; lra).
  set (C6 := a * vnorm G0 * (C4 * f + a * C5)). set (C7 := a * vnorm G0 * (C2 + a * C3)).
  set (E5 := a * C5 + K * (C5 * C5)). set (E3 := a * C3 + K * (C3 * C3)).
  set (C8 := 2 * (R0 * (K * (C5 * C5))) + E5 * E5). set (E9 := a * C5 + E3 * f). set (C9 := 2 * (R0 * (K * (C3 * C3 * (f * f)))) + E9 * E9).
  assert (Hff : 0 <= f * f) by (apply Rmult_le_pos; lra).
  assert (P6 : 0 <= C6). { unfold C6. npos. }
  assert (P7 : 0 <= C7). { unfold C7. npos. }
  assert (P8 : 0 <= C8). { unfold C8. pose proof (Rle_0_sqr E5). unfold Rsqr in *. assert (0 <= R0 * (K * (C5 * C5))) by (npos). lra. }
  assert (P9 : 0 <= C9). { unfold C9. pose proof (Rle_0_sqr E9). unfold Rsqr in *. assert (0 <= R0 * (K * (C3 * C3 * (f * f)))) by (npos). lra. }
  exists (1 + (4 * C6 + 2 * (f * f * C7) + C8 + C9 + 1) / (sumsq G0 * (1 - q * (1 + f)))). split.
  { assert (0 < (4 * C6 + 2 * (f * f * C7) + C8 + C9 + 1) / (sumsq G0 * (1 - q * (1 + f)))); [|lra].
    assert (0 <= f * f * C7) by (apply Rmult_le_pos; auto). apply Rdiv_lt_0_compat; [lra|]. apply Rmult_lt_0_compat; lra. }
  set (L := 1 + _). intros b2 b1 b0 rho2 d2 rho1 d1 rho0 d0 r Hb2 Hb1 Hb0 Hr12 Hr01 Hl2 Hn2 N2 L2 N1 L1 N0 L0.
  assert (HL : 1 <= L). { unfold L. assert (0 < (4 * C6 + 2 * (f * f * C7) + C8 + C9 + 1) / (sumsq G0 * (1 - q * (1 + f)))); [|lra].
    assert (0 <= f * f * C7) by (apply Rmult_le_pos; auto). apply Rdiv_lt_0_compat; [lra|]. apply Rmult_lt_0_compat; lra. }
  assert (B2 : 0 < b2) by lra. assert (B1 : 0 < b1) by lra. assert (B0 : 0 < b0) by lra.
  pose proof L2 as (_ & Hl1 & _). pose proof L1 as (_ & Hl0 & _).
  destruct (land_move A a r0 HF Hr0 K d2 rho1 L2) as (M2 & _). destruct (land_move A a r0 HF Hr0 K d1 rho0 L1) as (M1 & _).
  pose proof (step_norm A a HA Ha HF b2 rho2 d2 B2 Hl2 N2) as S2. pose proof (step_norm A a HA Ha HF b1 rho1 d1 B1 Hl1 N1) as S1. pose proof (step_norm A a HA Ha HF b0 rho0 d0 B0 Hl0 N0) as S0.
  pose proof (step_dir A a r0 HA Ha HF Hr0 b1 rho1 d1 B1 Hl1 N1) as D1. pose proof (step_dir A a r0 HA Ha HF Hr0 b0 rho0 d0 B0 Hl0 N0) as D0. fold G0 in D1, D0.
  pose proof (cost_change A a r0 HF Hr0 K d0 r L0) as CC. pose proof (model_change' A a r0 HF Hr0 K d0 d1 rho0 (proj1 L0) L1) as MC.
  fold R0 in CC, MC.
  destruct (vnorm_sq d2) as (V2 & Q2). destruct (vnorm_sq d1) as (V1 & Q1). destruct (vnorm_sq d0) as (V0 & Q0). rewrite <- Q2 in M2. rewrite <- Q1 in M1, MC. rewrite <- Q0 in CC.
  assert (I2 : / b2 <= f * / b1) by (apply inv_ratio; auto). assert (I1 : / b1 <= f * / b0) by (apply inv_ratio; auto).
  assert (U1 : 0 <= / b1 <= 1). { split; [apply Rlt_le, Rinv_0_lt_compat; auto|]. rewrite <- Rinv_1. apply Rinv_le_contravar; lra. }
  assert (U0 : 0 <= / b0 <= 1). { split; [apply Rlt_le, Rinv_0_lt_compat; auto|]. rewrite <- Rinv_1. apply Rinv_le_contravar; lra. }
  assert (Nm : forall rho c u, length rho = fst (m_shape A) -> 0 <= c -> 0 <= u <= 1 -> vnorm (vsub rho r0) <= c * u -> vnorm rho <= R0 + c).
  { intros rho c u Hl Hc Hu H. assert (Er : rho = vadd (vsub rho r0) r0).
    { apply (nth_ext' _ _ 0); [rewrite vadd_length; rewrite vsub_length; lia|]. intros i Hi. rewrite nth_vadd by (rewrite vsub_length; lia). rewrite nth_vsub by lia. lra. }
    rewrite Er. eapply Rle_trans; [apply norm_add; rewrite vsub_length; lia|]. fold R0. assert (c * u <= c * 1) by (apply Rmult_le_compat_l; lra). lra. }
  (* d2 *)
  assert (X2 : vnorm d2 <= C1 * / b1).
  { apply by_inv in S2; auto. eapply Rle_trans; [exact S2|]. unfold C1.
    assert (a * vnorm rho2 <= a * B) by (apply Rmult_le_compat_l; auto). assert (0 <= / b2) by (apply Rlt_le, Rinv_0_lt_compat; auto).
    assert (0 <= a * B) by (apply Rmult_le_pos; auto).
    assert (a * vnorm rho2 * / b2 <= a * B * / b2) by (apply Rmult_le_compat_r; auto).
    assert (a * B * / b2 <= a * B * (f * / b1)) by (apply Rmult_le_compat_l; auto). lra. }
  assert (Y1 : vnorm (vsub rho1 r0) <= C2 * / b1) by (eapply Rle_trans; [exact M2 | apply grow; auto]).
  assert (Z1 : vnorm rho1 <= R0 + C2) by (apply (Nm rho1 C2 (/ b1)); auto).
  assert (X1 : vnorm d1 <= C3 * / b1).
  { apply by_inv in S1; auto. eapply Rle_trans; [exact S1|]. apply Rmult_le_compat_r; [lra|]. apply Rmult_le_compat_l; auto. }
  assert (Y0 : vnorm (vsub rho0 r0) <= C4 * / b1) by (eapply Rle_trans; [exact M1 | apply grow; auto]).
  assert (Z0 : vnorm rho0 <= R0 + C4) by (apply (Nm rho0 C4 (/ b1)); auto).
  assert (X0 : vnorm d0 <= C5 * / b0).
  { apply by_inv in S0; auto. eapply Rle_trans; [exact S0|]. apply Rmult_le_compat_r; [lra|]. apply Rmult_le_compat_l; auto. }
  assert (X1' : vnorm d1 <= C3 * f * / b0). { eapply Rle_trans; [exact X1|]. rewrite Rmult_assoc. apply Rmult_le_compat_l; auto. }
  assert (AG : 0 <= a * vnorm G0) by (apply Rmult_le_pos; auto).
  assert (HP : Rabs (b0 * vdot r0 (mapply A d0) + sumsq G0) <= C6 * / b0).
  { eapply Rle_trans; [exact D0|]. unfold C6. rewrite (Rmult_assoc (a * vnorm G0)). apply Rmult_le_compat_l; auto.
    assert (C4 * / b1 <= C4 * (f * / b0)) by (apply Rmult_le_compat_l; auto). assert (a * vnorm d0 <= a * (C5 * / b0)) by (apply Rmult_le_compat_l; auto). lra. }
  assert (HP' : Rabs (b1 * vdot r0 (mapply A d1) + sumsq G0) <= C7 * / b1).
  { eapply Rle_trans; [exact D1|]. unfold C7. rewrite (Rmult_assoc (a * vnorm G0)). apply Rmult_le_compat_l; auto.
    assert (a * vnorm d1 <= a * (C3 * / b1)) by (apply Rmult_le_compat_l; auto). lra. }
  assert (SQ0 : vnorm d0 * vnorm d0 <= C5 * C5 * (/ b0 * / b0)). { replace (C5 * C5 * (/ b0 * / b0)) with ((C5 * / b0) * (C5 * / b0)) by ring. apply Rmult_le_compat; auto. }
  assert (SQ1 : vnorm d1 * vnorm d1 <= C3 * C3 * (f * f) * (/ b0 * / b0)). { replace (C3 * C3 * (f * f) * (/ b0 * / b0)) with ((C3 * f * / b0) * (C3 * f * / b0)) by ring. apply Rmult_le_compat; auto. }
  assert (HN : Rabs (sumsq r - sumsq r0 - 2 * vdot r0 (mapply A d0)) <= C8 * (/ b0 * / b0)).
  { eapply Rle_trans; [exact CC|]. pose proof (grow a K (vnorm d0) C5 (/ b0) Ha HK V0 P5 U0 X0) as HE. fold E5 in HE.
    assert (HE2 : (a * vnorm d0 + K * (vnorm d0 * vnorm d0)) * (a * vnorm d0 + K * (vnorm d0 * vnorm d0)) <= (E5 * / b0) * (E5 * / b0)).
    { assert (0 <= a * vnorm d0 + K * (vnorm d0 * vnorm d0)) by (npos). apply Rmult_le_compat; auto. }
    assert (R0 * (K * (vnorm d0 * vnorm d0)) <= R0 * (K * (C5 * C5 * (/ b0 * / b0)))) by (do 2 (apply Rmult_le_compat_l; auto)).
    unfold C8. lra. }
  assert (HD : Rabs (sumsq (vadd (mapply A d0) rho0) - sumsq r0 - 2 * vdot r0 (mapply A d0) - 2 * vdot r0 (mapply A d1)) <= C9 * (/ b0 * / b0)).
  { eapply Rle_trans; [exact MC|]. pose proof (grow a K (vnorm d1) C3 (/ b1) Ha HK V1 P3 U1 X1) as HE. fold E3 in HE.
    assert (HE3 : 0 <= E3) by exact P4. assert (E3 * / b1 <= E3 * (f * / b0)) by (apply Rmult_le_compat_l; auto).
    assert (a * vnorm d0 <= a * (C5 * / b0)) by (apply Rmult_le_compat_l; auto).
    assert (HE2 : (a * vnorm d0 + (a * vnorm d1 + K * (vnorm d1 * vnorm d1))) * (a * vnorm d0 + (a * vnorm d1 + K * (vnorm d1 * vnorm d1))) <= (E9 * / b0) * (E9 * / b0)).
    { assert (0 <= a * vnorm d0 + (a * vnorm d1 + K * (vnorm d1 * vnorm d1))) by (npos).
      assert (a * vnorm d0 + (a * vnorm d1 + K * (vnorm d1 * vnorm d1)) <= E9 * / b0) by (unfold E9; lra). apply Rmult_le_compat; auto. }
    assert (R0 * (K * (vnorm d1 * vnorm d1)) <= R0 * (K * (C3 * C3 * (f * f) * (/ b0 * / b0)))) by (do 2 (apply Rmult_le_compat_l; auto)).
    unfold C9. lra. }
  destruct (numbers f q (sumsq G0) C6 C7 C8 C9 b0 b1 _ _ _ _ Hf Hq Hqf HG P6 P7 P8 P9 Hb0 Hb1 Hr01 HP HP' HN HD) as (F1 & F2 & F3).
  split; [lra|]. split; lra.
Qed.
End Recover.
