(* What the stopping tests guarantee close to poses at which all measurements hold. *)
From Coq Require Import List Arith Bool ZArith Lia Permutation Reals Lra Psatz.
From Verif Require Import Num NumR Py Arr MLayout MAssign MNoise MSparse MFactor MGraph MLinear MSolver MLie MPose SpecLayout SpecTree SpecAssign SpecNoise SpecGraph SpecLie SpecPose SpecZero SpecSpatial SpecTwin SpecInv SpecOrder SpecSolver SpecBook SpecNear SpecBasin.
From Verif Require Import PBase PLayout PGraph PVec PLie PPose PFrame PSolverR PNoise PDescent PLocal PLin PLinDl POrder PHold PTwin2 PFree PZero PJacZero PNear PSpatial PSpatial2 PSpatial3 PSpatial4 PBook PBasin PBasin2 PBasin3 PBasin4 PBasin5 PBasin6 PBasin7 PBasin8 PBasin9 PBasin10 PBasin11.
Import ListNotations.
Local Open Scope R_scope.

(* ---- stored poses near z are bounded ---- *)
Section Families.
Context {P : Type}.
Variable u : P -> R.
Hypothesis Hu : forall p, 0 <= u p.
Notation bounded := (PBasin4.bounded u).

Lemma O_mul00 f g : O u 0 f -> O u 0 g -> O u 0 (fun p => f p * g p).
Proof. apply (O_mul u 0 0). Qed.
Lemma O_down1 f : O u 1 f -> O u 0 f.
Proof. apply O_down; auto. Qed.
Lemma exp_bounded raw X : PZero.known raw -> small u X -> bounded (fun p => lg_exp raw (X p)).
Proof.
  intros [[]|[]] HX k; cbn [raw_so2 raw_se2 raw_so3 raw_se3 lg_exp].
  - destruct (trig_near u Hu X 0 HX) as (Hc & Hs & _). destruct k as [|[|k]]; cbn; [apply (O_around u Hu 1 1 _ Hc) | apply O_down1; auto | destruct k; apply O_zero].
  - destruct (trig_near u Hu X 2 HX) as (Hc & Hs & _). destruct (b_near u Hu X HX) as (B0 & B1).
    destruct k as [|[|[|[|k]]]]; cbn; [apply (O_around u Hu 1 1 _ Hc) | apply O_down1; auto | | | destruct k; apply O_zero]; apply O_down1; [apply (lift_one u Hu _ _ B0); auto | apply (lift_one u Hu _ _ B1); auto].
  - destruct (ec_near u Hu X HX) as (Hc & _). destruct k as [|[|[|[|k]]]]; cbn; [apply (O_around u Hu 2 1 _ Hc) | | | | destruct k; apply O_zero]; apply O_down1, (exp_small u Hu X _ HX).
  - pose proof (small_rot u X HX) as RX. pose proof (small_tra u X HX) as TX. destruct (ec_near u Hu _ RX) as (Hc & _).
    assert (Hv : small u (fun p => vee (rotv (X p)) (trav (X p)))).
    { apply (lift u Hu _ (fun p => trav (X p))); [intros j Hj; apply vee_near; auto | intros; apply vee3'; reflexivity | auto]. }
    assert (Hf : forall p, se3_exp (X p) = quat_exp (rotv (X p)) ++ vee (rotv (X p)) (trav (X p))).
    { intros p. apply se3_exp_form. }
    apply (O_ext u 0 (fun p => (quat_exp (rotv (X p)) ++ vee (rotv (X p)) (trav (X p))).[k])); [intros p; rewrite Hf; auto|].
    destruct k as [|[|[|[|k]]]]; [apply (O_around u Hu 2 1 _ Hc) | apply O_down1, (exp_small u Hu _ 0 RX) | apply O_down1, (exp_small u Hu _ 1 RX) | apply O_down1, (exp_small u Hu _ 2 RX) |].
    change (O u 0 (fun p => (vee (rotv (X p)) (trav (X p))).[k])). apply O_down1. auto.
Qed.
Ltac bds H := repeat first [apply O_const | apply H | apply O_add; auto | apply O_sub; auto | apply O_opp; auto | apply O_mul00].
Lemma mul_bounded raw a V : PZero.known raw -> bounded V -> bounded (fun p => lg_mul raw a (V p)).
Proof.
  intros [[]|[]] HV k; cbn [raw_so2 raw_se2 raw_so3 raw_se3 lg_mul].
  - destruct k as [|[|k]]; cbn; [bds HV | bds HV | destruct k; apply O_zero].
  - destruct k as [|[|[|[|k]]]]; cbn; [bds HV | bds HV | bds HV | bds HV | destruct k; apply O_zero].
  - destruct k as [|[|[|[|k]]]]; cbn; [bds HV | bds HV | bds HV | bds HV | destruct k; apply O_zero].
  - assert (Hf : forall p, se3_mul a (V p) = quat_mul (rot_part a) (rot_part (V p)) ++ vadd (rotate (rot_part a) (tra_part (V p))) (tra_part a)) by (intros p; unfold se3_mul; rewrite apply_rotate; auto).
    eapply O_ext; [intros p; rewrite Hf; reflexivity|].
    destruct k as [|[|[|[|[|[|[|k]]]]]]]; cbn; [bds HV | bds HV | bds HV | bds HV | bds HV | bds HV | bds HV | destruct k; apply O_zero].
Qed.
End Families.

Lemma pose_bounded raw p : PZero.known raw -> exists S d, 0 <= S /\ 0 < d /\ forall e, vnorm e <= d -> vnorm (lie_retract raw p e) <= S.
Proof.
  intros Hk. set (u := fun e : list R => vnorm e). assert (Hu : forall e, 0 <= u e) by (intros; apply norm_pos).
  assert (Hs : small u (fun e => e)) by (intros k; exists 1, 1; split; [lra|]; split; [lra|]; intros e _; rewrite pow_1, Rmult_1_l; apply comp_le_norm).
  pose proof (mul_bounded u raw p _ Hk (exp_bounded u Hu raw _ Hk Hs)) as Hb. set (n := length (lg_one raw)).
  destruct (all_below u 0 n (fun k e => (lg_mul raw p (lg_exp raw e)).[k]) Hu) as (C & d & HC & Hd & H); [intros k _; apply Hb|].
  exists (INR n * C), d. pose proof (pos_INR n). split; [apply Rmult_le_pos; auto|]. split; auto. intros e He. specialize (H e He).
  assert (Ll : length (lie_retract raw p e) = n) by (apply retract_dim; auto). rewrite <- Ll. apply norm_le_comps; auto. rewrite Ll. intros k Hlt. specialize (H k Hlt). cbn [pow] in H. rewrite Rmult_1_r in H. exact H.
Qed.

Section Graph.
Variable groups : vty -> lie_ops R (list R).
Variable fs : list (factor R).
Variable z : var -> pytree R.
Hypothesis SB : solved_by groups fs z.
Let E := pose_env groups.
Notation field := (var -> list R).
Notation LL := (LL groups fs).
Notation RR := (RR groups fs).
Notation flatv := (flatv fs).
Notation plus xi t nu := (fun v => vadd (xi v) (vscale t (nu v))).

Lemma poses_bounded l : (forall v, In v l -> PZero.known (groups (v_ty v))) -> exists S d, 0 <= S /\ 0 < d /\
  forall v, In v l -> forall e, vnorm e <= d -> vnorm (lie_retract (groups (v_ty v)) (params (z v)) e) <= S.
Proof.
  induction l as [|v l IH]; intros Hk; [exists 0, 1; split; [lra|]; split; [lra|]; intros v []|].
  destruct IH as (S & d & HS & Hd & H); [intros; apply Hk; right; auto|]. destruct (pose_bounded (groups (v_ty v)) (params (z v)) (Hk v (or_introl eq_refl))) as (S' & d' & HS' & Hd' & H').
  exists (S + S'), (Rmin d d'). split; [lra|]. split; [apply Rmin_pos; auto|]. intros w [<-|Hw] e He.
  - eapply Rle_trans; [apply H'; eapply Rle_trans; [exact He | apply Rmin_r] | lra].
  - eapply Rle_trans; [apply H; auto; eapply Rle_trans; [exact He | apply Rmin_l] | lra].
Qed.
Lemma storage_bounded : classes_ok (e_cls E) -> exists S d, 0 <= S /\ 0 < d /\ forall a val e, moved E fs z e val -> size fs e <= d -> holds E fs a val -> vnorm (as_storage a) <= S.
Proof.
  intros CO. destruct (poses_bounded (mentioned fs) (kn groups fs z SB)) as (S & d & HS & Hd & H). exists (INR (length (order (mentioned fs))) * S), d. split; [apply Rmult_le_pos; auto; apply pos_INR|]. split; auto.
  intros a val e Hm He Hh. destruct (holds_storage E fs CO a val Hh) as (Hl & Hb). rewrite (vec_blocks (e_cls E) false (mentioned fs) (mentioned_nodup fs) (as_storage a) Hl), <- flat_map_concat_map.
  apply flat_norm. intros v Hv. apply (proj1 (order_in _ _)) in Hv. change (vnorm (block (e_cls E) (graph_layout E fs false) (as_storage a) v) <= S). rewrite Hb by auto. specialize (Hm v Hv). cbn in Hm. injection Hm as Hm. rewrite <- Hm. change (vnorm (params (group_value (v_ty v) (lie_retract (groups (v_ty v)) (params (z v)) (e v)))) <= S). rewrite params_value.
  apply H; auto. eapply Rle_trans; [apply size_part; eauto | auto].
Qed.

(* ---- cost, length of the step and decrease of the cost are of the order expected ---- *)
Lemma cost_small : exists M d, 0 <= M /\ 0 < d /\ forall e val, tangent E fs e -> moved E fs z e val -> size fs e <= d -> cost_at E fs val <= M * (size fs e * size fs e).
Proof.
  destruct (graph_near groups fs z SB) as (K & d & HK & Hd & HN). destruct (LL_bounded groups fs z SB) as (M & HM & HB). set (B := 2 * K * d + M). assert (HB0 : 0 <= B) by (assert (0 <= K * d) by (apply Rmult_le_pos; lra); unfold B; lra).
  exists (B * B), d. split; [apply Rmult_le_pos; auto|]. split; auto. intros e val Te Hm Hs. destruct (HN e val (size fs e) Te (Rle_refl _) Hs Hm) as ((HC & _) & HW & HJ). set (r := size fs e) in *. pose proof (size_pos fs e) as Pr. fold r in Pr.
  pose proof (legal_of groups fs z SB e val Hm) as Lv. pose proof (legal_z groups fs z SB) as Lz. pose proof (LL_len groups fs z SB val e Lv) as L1. pose proof (LL_len groups fs z SB z e Lz) as L2. pose proof (RR_len groups fs z SB val Lv) as L3.
  assert (H1 : vnorm (RR val) <= B * r).
  { eapply Rle_trans; [apply (norm_split _ (LL val e)); congruence|]. pose proof (norm_split (LL val e) (LL z e) ltac:(congruence)) as Q. pose proof (HJ e Te) as Q1. pose proof (HB e Te) as Q2. fold r in Q1, Q2.
    assert (Q3 : K * (r * r) <= K * d * r) by (rewrite Rmult_assoc; apply Rmult_le_compat_l; auto; apply Rmult_le_compat_r; auto). unfold B. lra. }
  change (cost_at E fs val) with (cost_at (pose_env groups) fs val). rewrite HC. destruct (vnorm_sq (RR val)) as (V0 & V1). rewrite <- V1. replace (B * B * (r * r)) with (B * r * (B * r)) by ring. apply Rmult_le_compat; auto.
Qed.

Lemma step_size : rigid groups fs z -> forall b0 b1, 0 < b0 -> b0 <= b1 -> exists rho h delta, 0 < rho /\ 0 < h /\ 0 < delta /\ forall beta val e xi p, b0 <= beta <= b1 -> tangent E fs e -> 0 < size fs e <= rho -> moved E fs z e val ->
  damped_step E fs beta val val xi -> moved E fs val xi p -> h * size fs e <= size fs xi /\ 0 < cost_at E fs val /\ cost_at E fs p <= (1 - delta) * cost_at E fs val.
Proof.
  intros HR b0 b1 Hb0 Hb1. destruct (turn_full groups fs z SB HR) as (m & rho1 & K1 & Hm & Hrho1 & HK1 & HT). destruct (predict groups fs z SB HR b0 b1 Hb0 Hb1) as (rho2 & C & Hrho2 & HC & HP). destruct cost_small as (M & d & HM & Hd & HCS).
  destruct (graph_near groups fs z SB) as (K & d' & HK & Hd' & HN).
  assert (Hmm : 0 < m * m) by nra. set (h := m * m / (2 * (m * m + b1))). assert (Hh : 0 < h) by (apply Rdiv_lt_0_compat; lra). assert (Eh : b1 / (m * m + b1) = 1 - 2 * h) by (unfold h; field; lra).
  destruct (min4 rho1 rho2 (Rmin d d') (Rmin (h / (2 * K1 + 1)) (1 / 2 / (C + 1)))) as (rho & Hrho & M1 & M2 & M3 & M4); auto; [apply Rmin_pos; auto | apply Rmin_pos; apply Rdiv_lt_0_compat; lra|].
  pose proof (Rmin_l d d') as M5. pose proof (Rmin_r d d') as M6. pose proof (Rmin_l (h / (2 * K1 + 1)) (1 / 2 / (C + 1))) as M7. pose proof (Rmin_r (h / (2 * K1 + 1)) (1 / 2 / (C + 1))) as M8.
  set (delta := b0 * (h * h) / 2 / (M + 1)). assert (Hbh : 0 < b0 * (h * h)) by (apply Rmult_lt_0_compat; [auto | apply Rmult_lt_0_compat; auto]). assert (Hdel : 0 < delta) by (apply Rdiv_lt_0_compat; lra).
  exists rho, h, delta. do 3 (split; auto). intros beta val e xi p Hb Te (Hpos & Hs) Hv Hds Hp. destruct (HT beta val e xi p ltac:(lra) Te ltac:(lra) Hv Hds Hp) as (e' & Te' & Hve' & Se' & Sx & Hc). assert (Hs2 : size fs e <= rho2) by lra. set (r := size fs e) in *. pose proof Hds as (Tx & Hmin).
  pose proof (small_mul h (2 * K1) r Hh ltac:(lra) ltac:(lra) ltac:(lra)) as Hkr. assert (Hkr0 : 0 <= K1 * r) by (apply Rmult_le_pos; lra).
  assert (Hbq : beta / (m * m + beta) <= 1 - 2 * h).
  { rewrite <- Eh. assert (E1 : b1 / (m * m + b1) - beta / (m * m + beta) = m * m * (b1 - beta) / ((m * m + b1) * (m * m + beta))) by (field; lra). assert (0 <= m * m * (b1 - beta) / ((m * m + b1) * (m * m + beta))) by (apply Rmult_le_pos; [apply Rmult_le_pos; lra | apply Rlt_le, Rinv_0_lt_compat, Rmult_lt_0_compat; lra]). lra. }
  assert (Se2 : size fs e' <= (1 - 2 * h + K1 * r) * r) by (eapply Rle_trans; [exact Se'|]; apply Rmult_le_compat_r; lra).
  assert (Hx : h * r <= size fs xi).
  { assert (Te1 : tangent E fs (plus e 1 xi)) by (apply plus_tangent; auto). pose proof (flat_length groups fs e' (plus e 1 xi) Te' Te1) as G1. pose proof (flat_length groups fs e xi Te Tx) as G2.
    pose proof (norm_split (flatv (plus e 1 xi)) (flatv e') ltac:(auto)) as Q. rewrite norm_flip in Q by auto. rewrite <- (size_flat fs e') in Q.
    assert (Q2 : vnorm (flatv e) <= vnorm (flatv (plus e 1 xi)) + vnorm (flatv xi)).
    { rewrite <- (norm_neg (flatv xi)). rewrite (flat_plus groups fs e xi), vscale_one by auto. eapply Rle_trans; [|apply norm_add; rewrite vadd_length, vneg_length; auto]. right. f_equal.
      apply (nth_ext' _ _ 0); [rewrite !vadd_length; rewrite ?vneg_length; rewrite ?vadd_length; auto|]. intros i _. rewrite !nth_vadd, nth_vneg by (rewrite ?vneg_length; rewrite ?vadd_length; auto). ring. }
    rewrite <- (size_flat fs e), <- (size_flat fs xi) in Q2. fold r in Q2. assert (K1 * (r * r) = K1 * r * r) by ring. nra. }
  split; auto. destruct (HN e val r Te (Rle_refl _) ltac:(lra) Hv) as ((HCv & HMod) & _ & _). pose proof (legal_of groups fs z SB e val Hv) as Lv.
  assert (E0 : model E fs val val (still groups) = cost_at E fs val).
  { rewrite HMod by apply still_tangent. rewrite (LL_still groups fs z SB) by auto. change (cost_at E fs val) with (cost_at (pose_env groups) fs val). rewrite HCv. f_equal. rewrite vadd_comm. apply add_zero_r. apply (RR_len groups fs z SB); auto. }
  assert (I0 : inner fs (still groups) (still groups) = 0). { unfold inner. rewrite (vsum_map_ext _ (fun _ => 0)); [apply vsum_zeros|]. intros v Hv0. unfold still. rewrite <- sumsq_dot. apply zero_sumsq. }
  destruct (Hmin (still groups) (still_tangent groups fs)) as (HD & _). rewrite E0, I0, (inner_flat fs) in HD. rewrite (size_flat fs) in Hx. destruct (vnorm_sq (flatv xi)) as (X0 & X1). set (x := vnorm (flatv xi)) in *. rewrite <- X1 in HD.
  set (c := cost_at E fs val) in *. set (mo := model E fs val val xi) in *.
  assert (HDl : b0 * (h * h) * (r * r) <= c - mo).
  { assert (Q1 : h * r * (h * r) <= x * x) by (apply Rmult_le_compat; auto; apply Rmult_le_pos; lra). assert (Q2 : b0 * (h * r * (h * r)) <= beta * (x * x)) by (apply Rmult_le_compat; try lra; apply Rmult_le_pos; apply Rmult_le_pos; lra). lra. }
  assert (Hrr : 0 < r * r) by nra. assert (HDp : 0 < c - mo). { eapply Rlt_le_trans; [|exact HDl]. apply Rmult_lt_0_compat; auto. }
  destruct (HP beta val e xi p Hb Te Hs2 Hv Hds Hp) as (_ & HQ). specialize (HQ Hpos). fold r in HQ. unfold quality in HQ. change (model (pose_env groups) fs val val xi) with mo in HQ. change (cost_at (pose_env groups) fs val) with c in HQ.
  change (cost_at (pose_env groups) fs p) with (cost_at E fs p) in HQ. set (c' := cost_at E fs p) in *.
  assert (HC2 : C * r <= 1 / 2) by (apply (small_mul (1 / 2) C r); lra).
  assert (Hq : 1 / 2 <= (c' - c) / (mo - c)) by (set (qq := (c' - c) / (mo - c)) in *; pose proof (Rle_abs (- (qq - 1))) as Q; rewrite Rabs_Ropp in Q; lra).
  assert (Hdec : 1 / 2 * (c - mo) <= c - c').
  { apply (Rmult_le_compat_r (c - mo)) in Hq; [|lra]. replace ((c' - c) / (mo - c) * (c - mo)) with (c - c') in Hq by (field; lra). lra. }
  assert (Hcm : c <= M * (r * r)) by (apply (HCS e val Te Hv); fold r; lra).
  assert (Hcs : delta * c <= c - c').
  { assert (Q1 : delta * c <= delta * ((M + 1) * (r * r))) by (apply Rmult_le_compat_l; lra). replace (delta * ((M + 1) * (r * r))) with (b0 * (h * h) * (r * r) / 2) in Q1 by (unfold delta; field; lra). lra. }
  assert (Hc0 : 0 <= mo) by (unfold mo; rewrite HMod by auto; apply sumsq_nonneg). split; [lra|]. lra.
Qed.
End Graph.
