(* Proofs: one damped step on a pose graph without absolute measurements. *)
From Coq Require Import List Arith Bool Lia Reals Lra Psatz.
From Verif Require Import Num NumR Py Arr MLayout MAssign MNoise MSparse MFactor MGraph MLie MPose SpecLayout SpecTree SpecAssign SpecNoise SpecGraph SpecLie SpecPose SpecZero SpecSpatial SpecTwin SpecInv SpecOrder SpecSym SpecFrame SpecBook SpecNear SpecBasin SpecGauge PGraph PVec PLie PPose PFrame PExSym PSolverR PNoise PDescent PLocal PLin PLinDl POrder PDeriv PTwin2 PFree PZero PJacZero PNear PSpatial PSpatial2 PSpatial3 PSpatial4 PBook PBasin4 PBasin5 PBasin6 PBasin7 PBasin8 PBasin9 PBasin10 PBasin11 PBasin12 PGauge PGauge2.
Import ListNotations.
Local Open Scope R_scope.
Notation moved := SpecBook.moved.

Lemma sq_le a b : 0 <= b -> a * a <= b * b -> a <= b.
Proof. intros Hb H. apply Rsqr_incr_0_var; auto. Qed.
(* (1 - t) a + t b is short when a - b ... *)
Lemma blend_norm t (a b : list R) : 0 <= t <= 1 -> length a = length b -> vnorm (vadd (vscale (- t) b) a) <= (1 - t) * vnorm a + t * vnorm (vsub a b).
Proof.
  intros Ht L. assert (E1 : vadd (vscale (- t) b) a = vadd (vscale (1 - t) a) (vscale t (vsub a b))).
  { apply (nth_ext' _ _ 0); [rewrite !vadd_length; rewrite ?vscale_length, ?vsub_length; auto|]. intros i _. rewrite !nth_vadd, !nth_vscale, nth_vsub by (rewrite ?vscale_length, ?vsub_length; auto). ring. }
  rewrite E1. eapply Rle_trans; [apply norm_add; rewrite !vscale_length, vsub_length; auto|].
  assert (NS : forall k (x : list R), 0 <= k -> vnorm (vscale k x) <= k * vnorm x).
  { intros k x Hk. destruct (vnorm_sq x) as (X0 & X1). apply norm_le_of; [apply Rmult_le_pos; auto|]. rewrite sumsq_scale, <- X1. right. ring. }
  pose proof (NS (1 - t) a ltac:(lra)). pose proof (NS t (vsub a b) ltac:(lra)). lra.
Qed.

Section Graph.
Variable groups : vty -> lie_ops R (list R).
Variable fs : list (factor R).
Variable z : var -> pytree R.
Hypothesis SB : solved_by groups fs z.
Let E := pose_env groups.
Notation field := (var -> list R).
Notation LL := (LL groups fs).
Notation RR := (RR groups fs).
Notation flatv := (flatv fs).
Notation plus xi t nu := (fun v => vadd (xi v) (vscale t (nu v))).
(* a class of displacements all of which the residuals see *)
Variable fixes : field -> Prop.
Notation legal val := (forall v, In v (mentioned fs) -> value_ok (e_cls E (v_ty v)) (val v)).

Lemma slice_near : (exists m, 0 < m /\ forall eta, tangent E fs eta -> fixes eta -> m * size fs eta <= vnorm (LL z eta)) -> exists m M d, 0 < m /\ 0 <= M /\ 0 < d /\ forall e w, tangent E fs e -> fixes e -> size fs e <= d -> moved E fs z e w ->
  cost_at E fs w = sumsq (RR w) /\ m * size fs e <= vnorm (RR w) <= M * size fs e.
Proof.
  intros (m & Hm & Hlow). destruct (graph_near groups fs z SB) as (K & d & HK & Hd & HN). destruct (LL_bounded groups fs z SB) as (M & HM & HB).
  assert (Hq : 0 < (m / 2) / (2 * K + 1)) by (apply Rdiv_lt_0_compat; lra).
  exists (m / 2), (M + m), (Rmin d ((m / 2) / (2 * K + 1))). split; [lra|]. split; [lra|]. split; [apply Rmin_pos; auto|]. intros e w Te Hf Hs Hmv. set (r := size fs e) in *. pose proof (size_pos fs e) as Pr. fold r in Pr.
  assert (R1 : r <= d) by (eapply Rle_trans; [exact Hs | apply Rmin_l]). assert (R2 : r <= (m / 2) / (2 * K + 1)) by (eapply Rle_trans; [exact Hs | apply Rmin_r]).
  pose proof (small_mul (m / 2) (2 * K) r ltac:(lra) ltac:(lra) R2 Pr) as R3. destruct (HN e w r Te (Rle_refl _) R1 Hmv) as ((HC & _) & HW & HJ). split; auto.
  pose proof (legal_of groups fs z SB e w Hmv) as Lw. pose proof (legal_z groups fs z SB) as Lz. specialize (HJ e Te). fold r in HJ. pose proof (Hlow e Te Hf) as B1. pose proof (HB e Te) as B2. fold r in B1, B2.
  pose proof (LL_len groups fs z SB w e Lw) as L1. pose proof (LL_len groups fs z SB z e Lz) as L2. pose proof (RR_len groups fs z SB w Lw) as L3.
  pose proof (norm_mid (RR w) (LL w e) (LL z e) ltac:(congruence) ltac:(congruence)) as Q. pose proof (norm_split (RR w) (LL z e) ltac:(congruence)) as Q1. pose proof (norm_split (LL z e) (RR w) ltac:(congruence)) as Q2. rewrite norm_flip in Q2 by congruence.
  assert (Q3 : 2 * K * r * r <= m / 2 * r) by (apply Rmult_le_compat_r; auto). split; lra.
Qed.

Lemma damped_zero beta val e xi : moved E fs z e val -> 0 < beta -> damped_step E fs beta val val xi -> (forall eta, tangent E fs eta -> model E fs val val eta = sumsq (vadd (LL val eta) (RR val))) -> cost_at E fs val = sumsq (RR val) ->
  model E fs val val xi + beta * (size fs xi * size fs xi) <= cost_at E fs val.
Proof.
  intros Hv Hb (Tx & Hmin) HMod HCv. pose proof (legal_of groups fs z SB e val Hv) as Lv.
  assert (E0 : model E fs val val (still groups) = cost_at E fs val).
  { rewrite HMod by (apply (still_tangent groups fs)). rewrite (LL_still groups fs z SB) by auto. rewrite HCv. f_equal. rewrite vadd_comm. apply add_zero_r. apply (RR_len groups fs z SB); auto. }
  assert (I0 : inner fs (still groups) (still groups) = 0). { unfold inner. rewrite (vsum_map_ext _ (fun _ => 0)); [apply vsum_zeros|]. intros v Hv1. unfold still. rewrite <- sumsq_dot. apply zero_sumsq. }
  destruct (Hmin (still groups) (still_tangent groups fs)) as (HD & _). rewrite E0, I0, (inner_flat fs) in HD. rewrite (size_flat fs). destruct (vnorm_sq (flatv xi)) as (X0 & X1). rewrite X1. lra.
Qed.

(* one damped step, from a displacement in the class *)
Lemma slice_step m M d : 0 < m -> 0 <= M -> 0 < d -> (forall e w, tangent E fs e -> fixes e -> size fs e <= d -> moved E fs z e w -> cost_at E fs w = sumsq (RR w) /\ m * size fs e <= vnorm (RR w) <= M * size fs e) ->
  forall b0 b1, 0 < b0 -> b0 <= b1 -> exists q G P rho, 0 <= q < 1 /\ 0 <= G /\ 0 <= P /\ 0 < rho /\ rho <= d /\
  forall beta val e xi p, b0 <= beta <= b1 -> tangent E fs e -> fixes e -> size fs e <= rho -> moved E fs z e val -> damped_step E fs beta val val xi -> moved E fs val xi p ->
    size fs xi <= G * size fs e /\ cost_at E fs p <= q * cost_at E fs val /\ (0 < size fs e -> Rabs (quality E fs val val xi p - 1) <= P * size fs e) /\
    exists e', tangent E fs e' /\ moved E fs z e' p /\ size fs e' <= G * size fs e.
Proof.
  intros Hm HM' Hd0 HS b0 b1 Hb0 Hb1. destruct (graph_near groups fs z SB) as (K & d1 & HK & Hd1 & HN). destruct (LL_bounded groups fs z SB) as (M0 & HM & HB).
  destruct (compose_uniform groups (mentioned fs) (kn groups fs z SB)) as (Kc & dc & HKc & Hdc & HC). set (N := INR (length (mentioned fs))). assert (HN0 : 0 <= N) by apply pos_INR.
  assert (Hsb : 0 < sqrt b0) by (apply sqrt_lt_R0; auto). pose proof (sqrt_sqrt b0 ltac:(lra)) as Esb. set (A := M / sqrt b0). assert (HA : 0 <= A) by (apply Rmult_le_pos; auto; apply Rlt_le, Rinv_0_lt_compat; auto).
  assert (EA : A * A * b0 = M * M) by (unfold A; rewrite <- Esb at 3; field; lra).
  set (G := A + 2). assert (HG : 2 <= G) by (unfold G; lra). set (K1 := N * Kc). assert (HK1 : 0 <= K1) by (apply Rmult_le_pos; auto).
  set (C1 := (13 * K + M0 * K1) * (2 * (4 * M0 + 5 * K) + (13 * K + M0 * K1))). assert (HMK : 0 <= M0 * K1) by (apply Rmult_le_pos; auto). assert (HC1 : 0 <= C1) by (apply Rmult_le_pos; lra).
  assert (Hmm : 0 < m * m) by nra. assert (HGG : 0 < G * G * G) by (apply Rmult_lt_0_compat; nra). set (P := C1 * (G * G * G) / (m * m)). assert (HP : 0 <= P). { apply Rmult_le_pos; [apply Rmult_le_pos; lra|]. apply Rlt_le, Rinv_0_lt_compat; auto. }
  set (t := (m * m) / (m * m + b1)). assert (Ht : 0 < t <= 1). { split; [apply Rdiv_lt_0_compat; lra|]. unfold t. apply (Rmult_le_reg_r (m * m + b1)); [lra|]. replace (m * m / (m * m + b1) * (m * m + b1)) with (m * m) by (field; lra). lra. }
  assert (Et : b1 * (t * t) = (1 - t) * t * (m * m)) by (unfold t; field; lra).
  destruct (min4 d (d1 / (2 * G)) (1 / G) (dc / G)) as (ra & Hra & A1 & A2 & A3 & A4); auto; try (apply Rdiv_lt_0_compat; lra).
  destruct (min4 ra (1 / (K1 * (G * G) + 1)) ((1 / 12) / (K / m + 1)) ((t / 4) / (P + 1))) as (rho & Hrho & B1 & B2 & B3 & B4); auto.
  { apply Rdiv_lt_0_compat; [lra|]. assert (0 <= K1 * (G * G)) by (apply Rmult_le_pos; nra). lra. }
  { assert (0 <= K / m) by (apply Rmult_le_pos; auto; apply Rlt_le, Rinv_0_lt_compat; auto). apply Rdiv_lt_0_compat; lra. }
  { apply Rdiv_lt_0_compat; lra. }
  exists (1 - t / 2), G, (P * (4 / (3 * t))), rho. split; [lra|]. split; [lra|]. split; [apply Rmult_le_pos; auto; apply Rlt_le, Rdiv_lt_0_compat; lra|]. split; auto. split; [lra|].
  intros beta val e xi p Hb Te Hf Hs Hv Hds Hp. set (r := size fs e) in *. pose proof (size_pos fs e) as Pr. fold r in Pr. pose proof Hds as (Tx & Hmin).
  assert (SC : forall y, r <= y / G -> G * r <= y). { intros y Hy. apply (Rmult_le_compat_l G) in Hy; [|lra]. replace (G * (y / G)) with y in Hy by (field; lra). auto. }
  assert (R1 : 2 * (G * r) <= d1). { assert (G * r <= d1 / 2); [|lra]. apply SC. replace (d1 / 2 / G) with (d1 / (2 * G)) by (field; lra). lra. }
  assert (R2 : G * r <= 1) by (apply SC; lra). assert (R3 : G * r <= dc) by (apply SC; lra).
  assert (R4 : K1 * (G * G) * r <= 1) by (apply small_mul; auto; try lra; apply Rmult_le_pos; nra).
  assert (Hkm : 0 <= K / m) by (apply Rmult_le_pos; auto; apply Rlt_le, Rinv_0_lt_compat; auto). assert (R5 : K / m * r <= 1 / 12) by (apply small_mul; auto; lra). assert (R6 : P * r <= t / 4) by (apply small_mul; auto; lra).
  assert (Gr : r <= G * r) by nra.
  destruct (HN e val r Te (Rle_refl _) ltac:(lra) Hv) as ((HCv & HMod) & HW & HJ). pose proof (legal_of groups fs z SB e val Hv) as Lv.
  destruct (HS e val Te Hf ltac:(fold r; lra) Hv) as (_ & Hc1 & Hc2). fold r in Hc1, Hc2. set (c := vnorm (RR val)) in *. destruct (vnorm_sq (RR val)) as (C0 & C2). fold c in C0, C2. fold E in HCv, HMod, HJ. rewrite <- C2 in HCv.
  (* the size of the step *)
  assert (HZ : model E fs val val xi + beta * (size fs xi * size fs xi) <= c * c). { rewrite <- HCv. apply (damped_zero beta val e xi); auto; lra. }
  assert (Pm : 0 <= model E fs val val xi) by (rewrite HMod by auto; apply sumsq_nonneg). pose proof (size_pos fs xi) as Px.
  assert (Sx : size fs xi <= A * r).
  { apply sq_le; [apply Rmult_le_pos; auto|]. apply (Rmult_le_reg_r b0); auto. replace (A * r * (A * r) * b0) with (A * A * b0 * (r * r)) by ring. rewrite EA.
    assert (Q1 : c * c <= M * r * (M * r)) by (apply Rmult_le_compat; auto). assert (Q2 : b0 * (size fs xi * size fs xi) <= beta * (size fs xi * size fs xi)) by (apply Rmult_le_compat_r; [apply Rmult_le_pos; auto | lra]). lra. }
  assert (SxG : size fs xi <= G * r) by (unfold G; lra).
  (* the displacement after the step *)
  set (e' := fun v => let raw := groups (v_ty v) in lg_log raw (lg_mul raw (lg_exp raw (e v)) (lg_exp raw (xi v)))). set (u := plus e 1 xi). assert (Tu : tangent E fs u) by (apply plus_tangent; auto).
  assert (HE : forall v, In v (mentioned fs) -> length (e' v) = lg_dim (groups (v_ty v)) /\ lie_retract (groups (v_ty v)) (lie_retract (groups (v_ty v)) (params (z v)) (e v)) (xi v) = lie_retract (groups (v_ty v)) (params (z v)) (e' v) /\
    vnorm (vsub (e' v) (u v)) <= Kc * (G * r * (G * r))).
  { intros v Hvv. destruct (HC v Hvv (params (z v)) (e v) (xi v) (G * r) (Te v Hvv) (Tx v Hvv)) as (G1 & G2 & G3); auto.
    - eapply Rle_trans; [apply (size_part fs e v Hvv)|]. fold r. lra.
    - eapply Rle_trans; [apply (size_part fs xi v Hvv)|]. auto.
    - split; auto. split; auto. unfold u. rewrite vscale_one. auto. }
  assert (Te' : tangent E fs e') by (intros v Hvv; apply HE; auto).
  assert (Hve' : moved E fs z e' p).
  { intros v Hvv. destruct (HE v Hvv) as (_ & G2 & _). specialize (Hv v Hvv). specialize (Hp v Hvv). cbn in Hv, Hp |- *. injection Hv as Hv. injection Hp as Hp. rewrite <- Hv in Hp. rewrite params_value in Hp. rewrite <- Hp, G2. reflexivity. }
  assert (D1 : vnorm (vsub (flatv e') (flatv u)) <= K1 * (G * r * (G * r))).
  { unfold PBasin8.flatv, K1. rewrite flat_sub by (intros v Hvv; rewrite (Te' v Hvv), (Tu v Hvv); auto). rewrite Rmult_assoc. apply flat_norm. intros v Hvv. apply HE; auto. }
  assert (Su : vnorm (flatv u) <= (A + 1) * r). { unfold u. rewrite (flat_plus groups fs e xi), vscale_one by auto. eapply Rle_trans; [apply norm_add; apply (flat_length groups fs); auto|]. rewrite <- !(size_flat fs). fold r. lra. }
  assert (Se' : size fs e' <= G * r).
  { rewrite (size_flat fs). eapply Rle_trans; [apply (norm_split _ (flatv u)); apply (flat_length groups fs); auto|]. assert (Q : K1 * (G * r * (G * r)) <= 1 * r). { replace (K1 * (G * r * (G * r))) with (K1 * (G * G) * r * r) by ring. apply Rmult_le_compat_r; auto. } unfold G in *. lra. }
  (* the cost after the step *)
  pose proof (predict_core groups fs z SB K M0 K1 e xi e' val p (G * r) d1 HK HM HK1 ltac:(lra) R2 R1 HN HB Te Tx Te' Hv Hve' Gr ltac:(lra) ltac:(lra) D1) as HPc. fold C1 E in HPc.
  assert (Er : C1 * (G * r * (G * r) * (G * r)) <= P * r * (c * c)).
  { assert (Q1 : m * r * (m * r) <= c * c) by (apply Rmult_le_compat; auto; apply Rmult_le_pos; lra). replace (C1 * (G * r * (G * r) * (G * r))) with (P * r * (m * r * (m * r))) by (unfold P; field; lra). apply Rmult_le_compat_l; auto. apply Rmult_le_pos; auto. }
  (* the model after the step *)
  set (eta := plus (still groups) (- t) e). assert (Ts : tangent E fs (still groups)) by (apply (still_tangent groups fs)). assert (Teta : tangent E fs eta) by (apply plus_tangent; auto).
  destruct (Hmin eta Teta) as (HD & _). rewrite (HMod eta Teta) in HD.
  assert (L1 : length (LL val e) = total residual_dim fs) by (apply (LL_len groups fs z SB); auto). assert (L3 : length (RR val) = total residual_dim fs) by (apply (RR_len groups fs z SB); auto).
  assert (E1 : LL val eta = vscale (- t) (LL val e)).
  { unfold eta. rewrite (LL_move groups fs z SB) by auto. rewrite (LL_still groups fs z SB) by auto. rewrite vadd_comm. apply add_zero_r. rewrite vscale_length. auto. }
  assert (I1 : inner fs eta eta = t * t * (r * r)).
  { rewrite (inner_flat fs). unfold eta. rewrite (flat_plus groups fs) by auto. assert (F0 : flatv (still groups) = vzero (length (flatv e))).
    { pose proof (flat_length groups fs (still groups) e Ts Te) as Lf. rewrite <- Lf. assert (S0 : vnorm (flatv (still groups)) <= 0). { right. apply vnorm_eq; [lra|]. unfold PBasin8.flatv. rewrite flat_sumsq. rewrite (vsum_map_ext _ (fun _ => 0)) by (intros; apply zero_sumsq). rewrite vsum_zeros. ring. } apply norm_zero in S0. exact S0. }
    rewrite F0, vadd_comm, add_zero_r by (rewrite vscale_length; auto). rewrite sumsq_scale. unfold r. rewrite (size_flat fs). destruct (vnorm_sq (flatv e)) as (_ & X1). rewrite X1. ring. }
  assert (HM1 : sumsq (vadd (LL val eta) (RR val)) <= ((1 - t) * c + t * (K / m * r * c)) * ((1 - t) * c + t * (K / m * r * c))).
  { rewrite E1. destruct (vnorm_sq (vadd (vscale (- t) (LL val e)) (RR val))) as (Y0 & Y1). rewrite <- Y1. pose proof (blend_norm t (RR val) (LL val e) ltac:(lra) ltac:(congruence)) as Q. fold c in Q.
    assert (Q2 : vnorm (vsub (RR val) (LL val e)) <= K / m * r * c). { eapply Rle_trans; [exact HW|]. replace (K * (r * r)) with (K / m * r * (m * r)) by (field; lra). apply Rmult_le_compat_l; auto. apply Rmult_le_pos; auto. }
    assert (Q3 : t * vnorm (vsub (RR val) (LL val e)) <= t * (K / m * r * c)) by (apply Rmult_le_compat_l; lra). apply Rmult_le_compat; auto; lra. }
  assert (Hcc : 0 <= c * c) by (apply Rmult_le_pos; auto).
  assert (HM2 : model E fs val val xi <= c * c * (1 - 3 / 4 * t)).
  { set (s := K / m * r) in *. assert (Ps : 0 <= s) by (apply Rmult_le_pos; auto). rewrite I1 in HD.
    assert (Q1 : beta * (t * t * (r * r)) <= (1 - t) * t * (c * c)).
    { assert (Q1 : m * r * (m * r) <= c * c) by (apply Rmult_le_compat; auto; apply Rmult_le_pos; lra). assert (Q2 : beta * (t * t * (r * r)) <= b1 * (t * t * (r * r))) by (apply Rmult_le_compat_r; [|lra]; apply Rmult_le_pos; nra).
      replace (b1 * (t * t * (r * r))) with ((1 - t) * t * (m * r * (m * r))) in Q2 by (replace (b1 * (t * t * (r * r))) with (b1 * (t * t) * (r * r)) by ring; rewrite Et; ring).
      assert (Q3 : (1 - t) * t * (m * r * (m * r)) <= (1 - t) * t * (c * c)) by (apply Rmult_le_compat_l; auto; apply Rmult_le_pos; lra). lra. }
    assert (Q4 : ((1 - t) * c + t * (s * c)) * ((1 - t) * c + t * (s * c)) = c * c * ((1 - t + t * s) * (1 - t + t * s))) by ring. rewrite Q4 in HM1.
    assert (Q5 : (1 - t + t * s) * (1 - t + t * s) + (1 - t) * t <= 1 - 3 / 4 * t).
    { assert (X1 : t * s <= t * (1 / 12)) by (apply Rmult_le_compat_l; lra). assert (X0 : 0 <= t * s) by (apply Rmult_le_pos; lra). nra. }
    assert (Q6 : c * c * ((1 - t + t * s) * (1 - t + t * s) + (1 - t) * t) <= c * c * (1 - 3 / 4 * t)) by (apply Rmult_le_compat_l; auto).
    assert (Pi : 0 <= beta * inner fs xi xi). { apply Rmult_le_pos; [lra|]. rewrite (inner_flat fs). apply sumsq_nonneg. } lra. }
  assert (HPc' : Rabs (cost_at E fs p - model E fs val val xi) <= P * r * (c * c)) by lra. pose proof (Rle_abs (cost_at E fs p - model E fs val val xi)) as Ab.
  split; auto. split; [|split; [|exists e'; auto]].
  - rewrite HCv. assert (Q : P * r * (c * c) <= t / 4 * (c * c)) by (apply Rmult_le_compat_r; auto). lra.
  - intros Hpos. assert (Hcp : 0 < c) by (assert (0 < m * r) by (apply Rmult_lt_0_compat; auto); lra). assert (Hcc2 : 0 < c * c) by (apply Rmult_lt_0_compat; auto).
    set (D := cost_at E fs val - model E fs val val xi). assert (HDl : 3 / 4 * t * (c * c) <= D) by (unfold D; rewrite HCv; lra).
    assert (HDp : 0 < D). { eapply Rlt_le_trans; [|exact HDl]. apply Rmult_lt_0_compat; lra. }
    set (c' := cost_at E fs p) in *. set (mo := model E fs val val xi) in *. unfold quality. fold c' mo.
    assert (EQ : (c' - cost_at E fs val) / (mo - cost_at E fs val) - 1 = - ((c' - mo) / D)) by (unfold D; field; unfold D in HDp; lra).
    rewrite EQ, Rabs_Ropp. unfold Rdiv at 1. rewrite Rabs_mult, (Rabs_pos_eq (/ D)) by (apply Rlt_le, Rinv_0_lt_compat; auto).
    apply (Rmult_le_reg_r D); auto. replace (Rabs (c' - mo) * / D * D) with (Rabs (c' - mo)) by (field; lra). eapply Rle_trans; [exact HPc'|].
    replace (P * r * (c * c)) with (P * (4 / (3 * t)) * r * (3 / 4 * t * (c * c))) by (field; lra). apply Rmult_le_compat_l; auto.
    apply Rmult_le_pos; auto. apply Rmult_le_pos; auto. apply Rlt_le, Rdiv_lt_0_compat; lra.
Qed.
End Graph.
