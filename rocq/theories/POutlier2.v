(* The recursions of Gauss-Newton on one pose with an outlier, over the reals. *)
From Coq Require Import List Arith Bool Lia Reals Lra Rsqrt_def.
From Verif Require Import Num NumR SpecOutlier PVec.
Import ListNotations.
Local Open Scope R_scope.

Notation eps := (1 / 100000).

(* ---- Gaussian outlier: the share of the outlier ---- *)
Section Gauss.
Variable m : nat.
Definition share (k : nat) : R := (1 - (eps / (INR m + 1 + eps)) ^ k) / (INR m + 1).
Lemma share_step k : share k + (1 * 1 * (1 - share k) - INR m * share k) / (INR m + 1 * 1 + eps) = share (S k).
Proof. pose proof (pos_INR m). unfold share. cbn [pow]. set (z := (eps / (INR m + 1 + eps)) ^ k). field. lra. Qed.
Lemma share_bounds k : (1 <= k)%nat -> 1 / (INR m + 1 + eps) <= share k <= 1 / (INR m + 1).
Proof.
  pose proof (pos_INR m). intros Hk. set (r := eps / (INR m + 1 + eps)).
  assert (Hr : 0 <= r <= 1).
  { unfold r. split; [apply Rlt_le, Rdiv_lt_0_compat; lra|]. apply (Rmult_le_reg_r (INR m + 1 + eps)); [lra|]. unfold Rdiv. rewrite Rmult_assoc, Rinv_l by lra. lra. }
  assert (Hp : 0 <= r ^ k <= r).
  { clearbody r. destruct k as [|k]; [lia|]. cbn [pow]. assert (0 <= r ^ k <= 1).
    { split; [apply pow_le; lra|]. rewrite <- (pow1 k). apply pow_incr. lra. }
    split; [apply Rmult_le_pos; lra|]. nra. }
  unfold share. fold r. split.
  - apply Rle_trans with ((1 - r) / (INR m + 1)).
    + right. unfold r. field. lra.
    + apply Rmult_le_compat_r; [apply Rlt_le, Rinv_0_lt_compat; lra | lra].
  - apply Rmult_le_compat_r; [apply Rlt_le, Rinv_0_lt_compat; lra | lra].
Qed.
End Gauss.

(* ---- fourth roots ---- *)
Definition root4 (x : R) : R := sqrt (sqrt x).
Lemma root4_pos x : 0 < x -> 0 < root4 x.
Proof. intros. apply sqrt_lt_R0, sqrt_lt_R0; auto. Qed.
Lemma root4_pow x : 0 <= x -> root4 x ^ 4 = x.
Proof.
  intros Hx. unfold root4. replace (sqrt (sqrt x) ^ 4) with ((sqrt (sqrt x) * sqrt (sqrt x)) * (sqrt (sqrt x) * sqrt (sqrt x))) by ring.
  rewrite !sqrt_sqrt; auto. apply sqrt_pos.
Qed.
Lemma pow4_lt a b : 0 <= a -> a < b -> a ^ 4 < b ^ 4.
Proof. intros. assert (0 <= a * a) by apply Rle_0_sqr. assert (a * a < b * b) by nra. replace (a ^ 4) with ((a * a) * (a * a)) by ring. replace (b ^ 4) with ((b * b) * (b * b)) by ring. nra. Qed.
Lemma pow4_inj a b : 0 <= a -> 0 <= b -> a ^ 4 = b ^ 4 -> a = b.
Proof. intros Ha Hb H. destruct (Rtotal_order a b) as [L|[L|L]]; auto; [pose proof (pow4_lt a b Ha L) | pose proof (pow4_lt b a Hb L)]; lra. Qed.
Lemma pow4_le_inv a b : 0 <= b -> a ^ 4 <= b ^ 4 -> a <= b.
Proof. intros Hb H. destruct (Rle_or_lt a b) as [|L]; auto. pose proof (pow4_lt b a Hb L). lra. Qed.

(* ---- Huber outlier ---- *)
Section Huber.
Variables (m : nat) (delta D : R).
Hypothesis Hm : (1 <= m)%nat.
Hypothesis Hd : 0 < delta.
Let M : 1 <= INR m.
Proof. apply (le_INR 1). auto. Qed.

Lemma rest_exists : delta + delta / INR m <= D -> exists X, rest_point m delta D X.
Proof.
  pose proof M as M1. intros HD. assert (Hdm : 0 < delta / INR m) by (apply Rdiv_lt_0_compat; lra).
  set (f := fun X => (INR m * X) ^ 4 - delta ^ 3 * (D - X)).
  assert (Hc : continuity f) by (unfold f; reg).
  assert (H0 : f 0 < 0). { unfold f. replace (INR m * 0) with 0 by ring. rewrite pow_i by lia. rewrite Rminus_0_r. assert (0 < delta ^ 3 * D) by (apply Rmult_lt_0_compat; [apply pow_lt; auto | lra]). lra. }
  assert (H1 : 0 <= f (D - delta)).
  { unfold f. replace (D - (D - delta)) with delta by ring. replace (delta ^ 3 * delta) with (delta ^ 4) by ring.
    assert (delta <= INR m * (D - delta)).
    { apply Rle_trans with (INR m * (delta / INR m)); [right; field; lra | apply Rmult_le_compat_l; lra]. }
    assert (delta ^ 4 <= (INR m * (D - delta)) ^ 4) by (apply pow_incr; lra). lra. }
  destruct (IVT_cor f 0 (D - delta) Hc ltac:(lra) ltac:(nra)) as (X & (HX0 & HX1) & HX).
  exists X. split; [|split; [lra | unfold f in HX; lra]]. destruct HX0 as [|<-]; auto. lra.
Qed.
Lemma rest_unique X Y : rest_point m delta D X -> rest_point m delta D Y -> X = Y.
Proof.
  pose proof M as M1. assert (P3 : 0 < delta ^ 3) by (apply pow_lt; auto).
  assert (W : forall X Y, rest_point m delta D X -> rest_point m delta D Y -> X < Y -> False).
  { intros A B (A1 & A2 & A3) (B1 & B2 & B3) L. assert (INR m * A < INR m * B) by (apply Rmult_lt_compat_l; lra).
    pose proof (pow4_lt (INR m * A) (INR m * B) ltac:(nra) H). assert (delta ^ 3 * (D - B) < delta ^ 3 * (D - A)) by (apply Rmult_lt_compat_l; lra). lra. }
  intros HX HY. destruct (Rtotal_order X Y) as [L|[L|L]]; auto; exfalso; eauto.
Qed.

Variable X : R.
Hypothesis HX : rest_point m delta D X.
Definition weight (t : R) : R := sqrt (delta / (D - t)).
Definition advance (t : R) : R :=
  t + (sqrt (weight t) * weight t * (D - t) - INR m * t) / (INR m + sqrt (weight t) * sqrt (weight t) + eps).
Definition slack : R := (1 + eps) / (INR m + 1 + eps).

Lemma rest_low : delta / INR m <= X.
Proof.
  pose proof M as M1. destruct HX as (H1 & H2 & H3). assert (P3 : 0 < delta ^ 3) by (apply pow_lt; auto).
  assert (delta <= INR m * X). { apply pow4_le_inv; [nra|]. rewrite H3. replace (delta ^ 4) with (delta ^ 3 * delta) by ring. apply Rmult_le_compat_l; lra. }
  apply (Rmult_le_reg_l (INR m)); [lra|]. replace (INR m * (delta / INR m)) with delta by (field; lra). auto.
Qed.
Lemma advance_ok t : 0 <= t <= X -> t <= advance t <= X /\ X - advance t <= slack * (X - t) /\ (t < X -> t < advance t).
Proof.
  pose proof M as M1. destruct HX as (H1 & H2 & H3). intros (Ht0 & HtX). set (n := D - t). set (N := D - X). fold N in H2, H3.
  assert (Hn : N <= n) by (unfold n, N; lra).
  set (p := root4 n). set (P := root4 N). set (d := root4 delta).
  assert (p0 : 0 < p) by (apply root4_pos; lra). assert (P0 : 0 < P) by (apply root4_pos; lra). assert (d0 : 0 < d) by (apply root4_pos; lra).
  assert (p4 : p ^ 4 = n) by (apply root4_pow; lra). assert (P4 : P ^ 4 = N) by (apply root4_pow; lra). assert (d4 : d ^ 4 = delta) by (apply root4_pow; lra).
  assert (HpP : P <= p) by (apply pow4_le_inv; lra). assert (HPd : d <= P) by (apply pow4_le_inv; lra).
  assert (Hw : weight t = (d / p) * (d / p)).
  { unfold weight. fold n. rewrite <- d4, <- p4. replace (d ^ 4 / p ^ 4) with ((d / p * (d / p)) * (d / p * (d / p))) by (field; lra). apply sqrt_square. apply Rle_0_sqr. }
  assert (Hdp : 0 < d / p) by (apply Rdiv_lt_0_compat; auto).
  assert (Hs : sqrt (weight t) = d / p) by (rewrite Hw; apply sqrt_square; lra).
  assert (HmX : INR m * X = d ^ 3 * P).
  { apply pow4_inj; [nra | apply Rmult_le_pos; [apply pow_le; lra | lra] |]. rewrite H3, <- d4, <- P4. ring. }
  assert (Hnum : sqrt (weight t) * weight t * (D - t) = d ^ 3 * p).
  { rewrite Hs, Hw. fold n. rewrite <- p4. field. lra. }
  unfold advance. rewrite Hnum, Hs. set (K := INR m + d / p * (d / p) + eps). assert (HK : 0 < K) by (unfold K; pose proof (Rle_0_sqr (d / p)) as Q; unfold Rsqr in Q; lra).
  assert (Hgap : X - t = p ^ 4 - P ^ 4) by (rewrite p4, P4; unfold n, N; ring).
  assert (Hd1 : d / p <= 1) by (apply (Rmult_le_reg_r p); auto; unfold Rdiv; rewrite Rmult_assoc, Rinv_l by lra; lra).
  assert (Hs2 : 0 <= d / p * (d / p) <= 1) by nra.
  (* d^3 (p - P) <= (X - t) (d/p)^2 *)
  assert (Hkey : d ^ 3 * (p - P) <= (X - t) * (d / p * (d / p))).
  { rewrite Hgap. apply (Rmult_le_reg_r (p * p)); [nra|].
    replace ((p ^ 4 - P ^ 4) * (d / p * (d / p)) * (p * p)) with ((p - P) * ((p + P) * (p * p + P * P)) * (d * d)) by (field; lra).
    replace (d ^ 3 * (p - P) * (p * p)) with ((p - P) * (d * (p * p)) * (d * d)) by ring.
    apply Rmult_le_compat_r; [nra|]. apply Rmult_le_compat_l; [lra|]. assert (0 <= p * p) by nra. assert (0 <= P * P) by nra. nra. }
  assert (Hstep : (d ^ 3 * p - INR m * t) = d ^ 3 * (p - P) + INR m * (X - t)) by (rewrite Rmult_minus_distr_l, Rmult_minus_distr_l, HmX; ring).
  rewrite Hstep. set (z := d ^ 3 * (p - P)) in *. assert (Hz : 0 <= z) by (apply Rmult_le_pos; [apply pow_le; lra | lra]).
  set (u := (z + INR m * (X - t)) / K). assert (Hu : u * K = z + INR m * (X - t)) by (unfold u; field; lra).
  assert (Hu0 : INR m * (X - t) <= u * K) by lra.
  split; [split|split].
  - assert (0 <= u) by (apply (Rmult_le_reg_r K); auto; nra). lra.
  - assert (u <= X - t); [|lra]. apply (Rmult_le_reg_r K); auto. rewrite Hu. unfold K. nra.
  - assert (Hl : slack * (INR m + 1 + eps) = 1 + eps) by (unfold slack; field; lra).
    apply (Rmult_le_reg_r (K * (INR m + 1 + eps))); [apply Rmult_lt_0_compat; lra|].
    replace ((X - (t + u)) * (K * (INR m + 1 + eps))) with (((X - t) * K - u * K) * (INR m + 1 + eps)) by ring.
    replace (slack * (X - t) * (K * (INR m + 1 + eps))) with (slack * (INR m + 1 + eps) * (X - t) * K) by ring. rewrite Hl, Hu.
    set (s2 := d / p * (d / p)) in *. unfold K.
    apply Rle_trans with ((X - t) * (s2 + eps) * (INR m + 1 + eps)); [apply Rmult_le_compat_r; [lra|]; nra|].
    rewrite Rmult_assoc, (Rmult_assoc), (Rmult_comm (1 + eps)), Rmult_assoc. apply Rmult_le_compat_l; [lra|]. nra.
  - intros Hlt. assert (0 < u); [|lra]. apply (Rmult_lt_reg_r K); auto. rewrite Rmult_0_l, Hu. nra.
Qed.
Lemma slack_pow k : 0 <= slack ^ k.
Proof. pose proof M. apply pow_le, Rlt_le, Rdiv_lt_0_compat; lra. Qed.
Lemma slack_lt : 0 < slack < 1.
Proof. pose proof M. unfold slack. split; [apply Rdiv_lt_0_compat; lra|]. apply (Rmult_lt_reg_r (INR m + 1 + eps)); [lra|]. unfold Rdiv. rewrite Rmult_assoc, Rinv_l by lra. lra. Qed.
Fixpoint travel (k : nat) : R := match k with O => 0 | S j => advance (travel j) end.
Lemma travel_ok k : 0 <= travel k <= X /\ X - travel k <= X * slack ^ k /\ ((1 <= k)%nat -> 0 < travel k).
Proof.
  destruct HX as (H1 & _). induction k as [|k (I1 & I2 & I3)]; [cbn; split; [lra|]; split; [lra | lia]|].
  cbn [travel]. destruct (advance_ok _ I1) as (A1 & A2 & A3). split; [lra|]. split.
  - cbn [pow]. eapply Rle_trans; [exact A2|]. pose proof slack_lt. replace (X * (slack * slack ^ k)) with (slack * (X * slack ^ k)) by ring. apply Rmult_le_compat_l; lra.
  - intros _. destruct (Req_dec (travel k) 0) as [E|]; [|lra]. assert (travel k < advance (travel k)) by (apply A3; lra). lra.
Qed.
End Huber.
