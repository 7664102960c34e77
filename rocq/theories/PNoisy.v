(* Proofs: residuals of pose factors near poses at which the measurement almost holds. *)
From Coq Require Import List Arith Bool Lia Reals Lra Psatz.
From Verif Require Import Num NumR MLie SpecNoise SpecLie SpecPose SpecZero SpecSpatial PVec PLie PExLie PPose PFrame PZero PJacZero PSolverR PNoise PDescent PLocal PLin PSpatial PSpatial2 PSpatial3 PSpatial4 PTwin2 PBasin PBasin2 PBasin3 PBasin4 PBasin5.
Import ListNotations.
Local Open Scope R_scope.

Section Group.
Variable raw : lie_ops R (list R).
Hypothesis Hk : known raw.
Notation "a ** b" := (lg_mul raw a b) (at level 40, left associativity).
Notation "a ^-" := (lg_inv raw a) (at level 2, format "a ^-").
Notation "p ~~ q" := (same_pose raw p q) (at level 70).
Notation n := (lg_dim raw).
Notation good p := (sized_pose raw p /\ unit_pose raw p).

Lemma off_prior_near mu z : good mu -> good z -> z ~~ mu -> exists K d, 0 <= K /\ 0 < d /\ forall e x r, length e = n -> length x = n -> vnorm e <= r -> vnorm x <= r -> r <= d ->
  vnorm (vsub (prior_residual raw (lie_retract raw mu x) (lie_retract raw z e)) (vneg e)) <= K * (r * r) + vnorm x.
Proof.
  intros Gm Gz H. destruct (near_log raw Hk) as (C & d & HC & Hd & HN). destruct (near_exp_log raw Hk) as (d' & Hd' & HL).
  exists C, (Rmin d d'). split; auto. split; [apply Rmin_pos; auto|]. intros e x r Le Lx He Hx Hr.
  assert (Hr1 : r <= d) by (eapply Rle_trans; [exact Hr | apply Rmin_l]). assert (Hr2 : r <= d') by (eapply Rle_trans; [exact Hr | apply Rmin_r]).
  destruct Gm as (Lm & Um). destruct Gz as (Lz & Uz). pose proof (good_exp raw Hk e) as (Lee & Uee). pose proof (good_exp raw Hk x) as (Lex & Uex).
  set (q := (z ** lg_exp raw e)^- ** (mu ** lg_exp raw x)). assert (Lq : sized_pose raw q) by (apply sized_mul; auto).
  assert (Hq : q ~~ (lg_exp raw e)^- ** lg_exp raw x).
  { unfold q. rewrite inv_of_mul, raw_assoc by auto. apply same_mul; auto; [apply sized_mul; auto|]. rewrite <- raw_assoc by auto.
    apply same_trans with ((mu^- ** mu) ** lg_exp raw x).
    - apply same_mul_l; auto; try (apply sized_mul; auto). apply same_mul_l; auto; try (apply sized_inv; auto). apply same_inv; auto.
    - rewrite raw_assoc by auto. rewrite cancel_left; auto. apply same_refl. }
  change (prior_residual raw (lie_retract raw mu x) (lie_retract raw z e)) with (lg_log raw q). rewrite (same_logs raw Hk q e x d' HL Lq Hq) by (auto; lra).
  pose proof (HN e x r Le Lx He Hx Hr1) as G. set (lq := lg_log raw ((lg_exp raw e)^- ** lg_exp raw x)) in *. assert (Ll : length lq = n) by (apply k_log_length; auto).
  eapply Rle_trans; [apply (norm_mid lq (vsub x e)); rewrite ?vneg_length, ?vsub_length; congruence|].
  assert (E2 : vsub (vsub x e) (vneg e) = x). { apply (nth_ext' _ _ 0); [rewrite !vsub_length; rewrite ?vsub_length, ?vneg_length; congruence|]. intros i _. rewrite !nth_vsub, nth_vneg by (rewrite ?vsub_length, ?vneg_length; congruence). ring. }
  rewrite E2. lra.
Qed.

Lemma between_pose s a b da db : good s -> good a -> good b -> a ** s ~~ b -> length da = n ->
  ((a ** lg_exp raw da)^- ** (b ** lg_exp raw db))^- ** s ~~ (lg_exp raw db)^- ** lg_exp raw (mvec (lg_adj raw (s^-)) da).
Proof.
  intros (Ls & Us) (La & Ua) (Lb & Ub) H Hda. pose proof (good_exp raw Hk da) as (Lea & Uea). pose proof (good_exp raw Hk db) as (Leb & Ueb).
  set (ea := lg_exp raw da) in *. set (eb := lg_exp raw db) in *.
  assert (Ux : unit_pose raw (a ** ea)) by (apply unit_mul; auto). assert (Uy : unit_pose raw (b ** eb)) by (apply unit_mul; auto).
  rewrite inv_of_mul by (auto; apply unit_inv; auto). rewrite inv_of_inv by (auto; apply sized_mul; auto). rewrite (inv_of_mul raw Hk b eb) by auto.
  rewrite !raw_assoc by auto. apply same_mul; auto; [apply sized_mul; auto | apply k_sized_exp; auto|].
  rewrite k_exp_adj by (auto; try (apply sized_inv; auto); apply unit_inv; auto). rewrite inv_of_inv by auto. fold ea. rewrite raw_assoc by auto.
  apply same_trans with ((a ** s)^- ** (a ** (ea ** s))).
  - apply same_mul_l; auto; [apply sized_inv; auto | apply sized_inv; auto|]. apply same_inv; auto; [apply sized_mul; auto|]. apply same_sym; auto.
  - rewrite inv_of_mul by auto. rewrite raw_assoc by auto. rewrite cancel_left; auto; [apply same_refl | apply sized_mul; auto].
Qed.
Lemma off_between_near s a b : good s -> good a -> good b -> a ** s ~~ b -> exists K d, 0 <= K /\ 0 < d /\ forall ea eb x r, length ea = n -> length eb = n -> length x = n -> vnorm ea <= r -> vnorm eb <= r -> vnorm x <= r -> r <= d ->
  let A := lg_adj raw (((lie_retract raw a ea)^- ** lie_retract raw b eb)^-) in
  vnorm (vsub (between_residual raw (lie_retract raw s x) (lie_retract raw a ea) (lie_retract raw b eb)) (vsub (mvec A ea) eb)) <= K * (r * r) + vnorm x.
Proof.
  intros Gs Ga Gb H. destruct (between_near raw Hk s a b Gs Ga Gb H) as (K0 & d0 & HK0 & Hd0 & HB). destruct (near_log raw Hk) as (C & d & HC & Hd & HN). destruct (near_exp_log raw Hk) as (d' & Hd' & HL).
  destruct (compose_near raw Hk) as (Kc & dc & HKc & Hdc & HCo).
  set (B := lg_adj raw (s^-)). pose proof (k_adj_shape raw Hk (s^-)) as (_ & HBs). destruct (mvec_bound n B HBs) as (c & Hc & Hcb).
  set (c1 := 1 + c). assert (Hc1 : 1 <= c1) by (unfold c1; lra). set (c2 := c1 + 1 + Kc * (c1 * c1)). assert (0 <= Kc * (c1 * c1)) by (apply Rmult_le_pos; nra). assert (Hc2 : 1 <= c2) by (unfold c2; lra).
  exists (K0 + Kc * (c1 * c1) + C * (c2 * c2) + C * (c1 * c1)), (Rmin (Rmin 1 d0) (Rmin (dc / c1) (Rmin (Rmin (d / c2) (d' / c2)) (Rmin (d / c1) (d' / c1))))).
  assert (0 <= C * (c2 * c2)) by (apply Rmult_le_pos; nra). assert (0 <= C * (c1 * c1)) by (apply Rmult_le_pos; nra). split; [lra|].
  split; [repeat apply Rmin_pos; auto; try lra; apply Rdiv_lt_0_compat; lra|].
  intros ea eb x r La Lb Lx Hea Heb Hx Hr A.
  assert (Rall : r <= 1 /\ r <= d0 /\ r <= dc / c1 /\ r <= d / c2 /\ r <= d' / c2 /\ r <= d / c1 /\ r <= d' / c1).
  { pose proof (Rmin_l (Rmin 1 d0) (Rmin (dc / c1) (Rmin (Rmin (d / c2) (d' / c2)) (Rmin (d / c1) (d' / c1))))). pose proof (Rmin_r (Rmin 1 d0) (Rmin (dc / c1) (Rmin (Rmin (d / c2) (d' / c2)) (Rmin (d / c1) (d' / c1))))).
    pose proof (Rmin_l 1 d0). pose proof (Rmin_r 1 d0). pose proof (Rmin_l (dc / c1) (Rmin (Rmin (d / c2) (d' / c2)) (Rmin (d / c1) (d' / c1)))). pose proof (Rmin_r (dc / c1) (Rmin (Rmin (d / c2) (d' / c2)) (Rmin (d / c1) (d' / c1)))).
    pose proof (Rmin_l (Rmin (d / c2) (d' / c2)) (Rmin (d / c1) (d' / c1))). pose proof (Rmin_r (Rmin (d / c2) (d' / c2)) (Rmin (d / c1) (d' / c1))).
    pose proof (Rmin_l (d / c2) (d' / c2)). pose proof (Rmin_r (d / c2) (d' / c2)). pose proof (Rmin_l (d / c1) (d' / c1)). pose proof (Rmin_r (d / c1) (d' / c1)). lra. }
  destruct Rall as (R1 & R2 & R3 & R4 & R5 & R6 & R7).
  assert (Mul : forall y k, 1 <= k -> r <= y / k -> k * r <= y). { intros y k Hk1 Hy. apply (Rmult_le_compat_l k) in Hy; [|lra]. replace (k * (y / k)) with y in Hy by (field; lra). auto. }
  apply Mul in R3; auto. apply Mul in R4; auto. apply Mul in R5; auto. apply Mul in R6; auto. apply Mul in R7; auto. clear Mul.
  pose proof (norm_pos ea) as Pa. assert (Pr : 0 <= r) by lra. assert (Pcr : 0 <= c * r) by (apply Rmult_le_pos; auto).
  destruct (HB ea eb r La Lb Hea Heb R2) as (G0 & _). cbv zeta in G0. fold A in G0.
  pose proof (between_pose s a b ea eb Gs Ga Gb H La) as Hq0. fold B in Hq0. set (q0 := ((a ** lg_exp raw ea)^- ** (b ** lg_exp raw eb))^- ** s) in *. assert (Lq0 : sized_pose raw q0) by (apply sized_mul; auto).
  assert (Eq0 : between_residual raw s (lie_retract raw a ea) (lie_retract raw b eb) = lg_log raw q0) by reflexivity.
  set (y := mvec B ea) in *. assert (Ly : length y = n) by (apply k_adj_length; auto).
  assert (Hy : vnorm y <= c1 * r) by (eapply Rle_trans; [apply Hcb; auto|]; assert (c * vnorm ea <= c * r) by (apply Rmult_le_compat_l; auto); unfold c1; lra).
  assert (Hb1 : vnorm eb <= c1 * r) by (unfold c1; lra). assert (Hx1 : vnorm x <= c1 * r) by (unfold c1; lra).
  rewrite (same_logs raw Hk q0 eb y d' HL Lq0 Hq0) in Eq0 by (auto; lra).
  pose proof (HN eb y (c1 * r) Lb Ly Hb1 Hy R6) as G1. rewrite <- Eq0 in G1.
  (* the noisy residual *)
  destruct (HCo ((lg_exp raw eb)^-) y x (c1 * r) Ly Lx Hy Hx1 R3) as (Lw & Ew & Hw). set (w := lg_log raw (lg_exp raw y ** lg_exp raw x)) in *.
  destruct Gs as (Ls & Us). destruct Ga as (Lga & Ua). destruct Gb as (Lgb & Ub). pose proof (good_exp raw Hk ea) as (Lea & Uea). pose proof (good_exp raw Hk eb) as (Leb & Ueb). pose proof (good_exp raw Hk x) as (Lex & Uex). pose proof (good_exp raw Hk y) as (Ley & Uey).
  set (q := ((a ** lg_exp raw ea)^- ** (b ** lg_exp raw eb))^- ** (s ** lg_exp raw x)). assert (Lq : sized_pose raw q) by (apply sized_mul; auto).
  assert (Hq : q ~~ (lg_exp raw eb)^- ** lg_exp raw w).
  { change (q ~~ lie_retract raw ((lg_exp raw eb)^-) w). rewrite <- Ew. unfold q, lie_retract, rplus. rewrite <- raw_assoc by auto.
    apply same_mul_l; [auto | apply sized_mul; auto | apply sized_mul; auto | exact Hq0]. }
  change (between_residual raw (lie_retract raw s x) (lie_retract raw a ea) (lie_retract raw b eb)) with (lg_log raw q).
  assert (Hwn : vnorm w <= c2 * r).
  { eapply Rle_trans; [apply (norm_split w (vadd y x)); rewrite vadd_length; congruence|]. assert (vnorm (vadd y x) <= c1 * r + r) by (eapply Rle_trans; [apply norm_add; congruence | lra]).
    assert (Kc * (c1 * r * (c1 * r)) <= Kc * (c1 * c1) * r). { replace (Kc * (c1 * r * (c1 * r))) with (Kc * (c1 * c1) * (r * r)) by ring. apply Rmult_le_compat_l; auto. nra. }
    unfold c2. lra. }
  assert (Hb2 : vnorm eb <= c2 * r) by (assert (c1 * r <= c2 * r) by (apply Rmult_le_compat_r; auto; unfold c2; lra); lra).
  rewrite (same_logs raw Hk q eb w d' HL Lq Hq) by (auto; lra).
  pose proof (HN eb w (c2 * r) Lb Lw Hb2 Hwn R4) as G2. set (lq := lg_log raw ((lg_exp raw eb)^- ** lg_exp raw w)) in *. assert (Ll : length lq = n) by (apply k_log_length; auto).
  set (rs := between_residual raw s (lie_retract raw a ea) (lie_retract raw b eb)) in *. assert (Lr : length rs = n) by (apply k_log_length; auto).
  set (g := vsub (mvec A ea) eb) in *. assert (Lg : length g = n) by (assert (LA : length (mvec A ea) = n) by (apply k_adj_length; auto); unfold g; rewrite vsub_length; congruence).
  eapply Rle_trans; [apply (norm_mid lq (vsub w eb)); rewrite ?vsub_length; congruence|].
  eapply Rle_trans; [apply Rplus_le_compat_l; apply (norm_mid (vsub w eb) (vsub y eb)); rewrite ?vsub_length; congruence|].
  eapply Rle_trans; [apply Rplus_le_compat_l; apply Rplus_le_compat_l; apply (norm_mid (vsub y eb) rs); rewrite ?vsub_length; congruence|].
  rewrite (norm_flip (vsub y eb) rs) by (rewrite vsub_length; congruence).
  assert (E3 : vnorm (vsub (vsub w eb) (vsub y eb)) <= Kc * (c1 * r * (c1 * r)) + vnorm x).
  { assert (E4 : vsub (vsub w eb) (vsub y eb) = vadd (vsub w (vadd y x)) x).
    { assert (Q1 : length (vadd y x) = n) by (rewrite vadd_length; congruence). assert (Q2 : length (vsub w (vadd y x)) = n) by (rewrite vsub_length; congruence).
      assert (Q3 : length (vsub w eb) = n) by (rewrite vsub_length; congruence). assert (Q4 : length (vsub y eb) = n) by (rewrite vsub_length; congruence).
      apply (nth_ext' _ _ 0); [rewrite vsub_length, vadd_length; congruence|]. intros i _. rewrite nth_vadd, !nth_vsub, nth_vadd by congruence. ring. }
    rewrite E4. eapply Rle_trans; [apply norm_add; rewrite vsub_length; rewrite ?vadd_length; congruence | lra]. }
  lra.
Qed.
End Group.
