(* The followed loss of one factor: concave in the squared norm, convex in the residual. *)
From Coq Require Import List Arith Bool Lia Reals Lra Psatz.
From Verif Require Import Num NumR Py Arr MNoise SpecNoise SpecDeriv SpecLoss.
From Verif Require Import PBase PVec PNoise PLoss PExLoss PLin.
Import ListNotations.
Local Open Scope R_scope.

Definition weight (delta n : R) : R := if Rlt_dec n delta then 1 else sqrt (delta / n) * sqrt (sqrt (delta / n)).

(* n / delta = u^4 *)
Lemma fourth delta n : 0 < delta -> delta <= n -> exists u, 1 <= u /\ u = sqrt (sqrt (n / delta)) /\ n = delta * (u * u * (u * u)) /\ sqrt (delta / n) = / (u * u) /\ sqrt (sqrt (delta / n)) = / u.
Proof.
  intros Hd Hn. exists (sqrt (sqrt (n / delta))).
  assert (Hq : 1 <= n / delta) by (apply (Rmult_le_reg_r delta); [lra|]; field_simplify; lra).
  assert (Hs : 1 <= sqrt (n / delta)) by (rewrite <- sqrt_1 at 1; apply sqrt_le_1_alt; lra).
  assert (Hu : 1 <= sqrt (sqrt (n / delta))) by (rewrite <- sqrt_1 at 1; apply sqrt_le_1_alt; lra).
  set (u := sqrt (sqrt (n / delta))) in *.
  assert (Huu : u * u = sqrt (n / delta)) by (unfold u; apply sqrt_sqrt; lra).
  assert (H4 : n = delta * (u * u * (u * u))) by (rewrite Huu, sqrt_sqrt by lra; field; lra).
  assert (Hi : sqrt (delta / n) = / (u * u)).
  { apply sqrt_lem_1; [apply Rlt_le, Rdiv_lt_0_compat; lra | left; apply Rinv_0_lt_compat; nra |]. rewrite H4 at 1. field. split; lra. }
  repeat split; auto. rewrite Hi. apply sqrt_lem_1; [left; apply Rinv_0_lt_compat; nra | left; apply Rinv_0_lt_compat; lra |]. field. lra.
Qed.
Lemma weight_outer delta n u : 0 < delta -> delta <= n -> sqrt (delta / n) = / (u * u) -> sqrt (sqrt (delta / n)) = / u -> u <> 0 -> weight delta n = / (u * u * u).
Proof. intros Hd Hn H1 H2 Hu. unfold weight. destruct (Rlt_dec n delta); [lra|]. rewrite H2, H1. field. auto. Qed.
Lemma loss_outer delta n u : 0 < delta -> delta <= n -> u = sqrt (sqrt (n / delta)) -> n = delta * (u * u * (u * u)) -> quarter_loss delta n = delta * delta * (4 / 5 * (u * u * u * u * u) - 3 / 10).
Proof. intros Hd Hn H1 H2. unfold quarter_loss. destruct (Rlt_dec n delta); [lra|]. rewrite <- H1, H2. field. Qed.
Lemma loss_inner delta n : n < delta -> quarter_loss delta n = n * n / 2.
Proof. intros H. unfold quarter_loss. destruct (Rlt_dec n delta); [auto | lra]. Qed.
Lemma weight_inner delta n : n < delta -> weight delta n = 1.
Proof. intros H. unfold weight. destruct (Rlt_dec n delta); [auto | lra]. Qed.

Lemma amgm8 u v : 0 <= u -> 0 <= v -> 8 * (v * v * v * v * v * (u * u * u)) <= 5 * (v * v * v * v * (v * v * v * v)) + 3 * (u * u * u * u * (u * u * u * u)).
Proof.
  intros Hu Hv. assert (H : 0 <= (v - u) * (v - u) * (5 * v^6 + 10 * v^5 * u + 15 * v^4 * u^2 + 12 * v^3 * u^3 + 9 * v^2 * u^4 + 6 * v * u^5 + 3 * u^6)).
  { apply Rmult_le_pos; [apply Rle_0_sqr|].
    assert (P : forall i, 0 <= u ^ i) by (intros; apply pow_le; auto). assert (Q : forall i, 0 <= v ^ i) by (intros; apply pow_le; auto).
    assert (PQ : forall i j, 0 <= v ^ i * u ^ j) by (intros; apply Rmult_le_pos; auto).
    pose proof (Q 6%nat). pose proof (P 6%nat). pose proof (PQ 5%nat 1%nat). pose proof (PQ 4%nat 2%nat). pose proof (PQ 3%nat 3%nat). pose proof (PQ 2%nat 4%nat). pose proof (PQ 1%nat 5%nat).
    rewrite pow_1 in *. lra. }
  match goal with |- ?a <= ?b => assert (b - a = (v - u) * (v - u) * (5 * v^6 + 10 * v^5 * u + 15 * v^4 * u^2 + 12 * v^3 * u^3 + 9 * v^2 * u^4 + 6 * v * u^5 + 3 * u^6)) by ring end. lra.
Qed.

(* above the tangent parabola in n^2 *)
Lemma majorise delta n m : 0 < delta -> 0 <= n -> 0 <= m -> quarter_loss delta m <= quarter_loss delta n + weight delta n / 2 * (m * m - n * n).
Proof.
  intros Hd Hn Hm. destruct (Rlt_or_le n delta) as [Hnd|Hnd].
  - rewrite (loss_inner _ _ Hnd), (weight_inner _ _ Hnd). destruct (Rlt_or_le m delta) as [Hmd|Hmd]; [rewrite (loss_inner _ _ Hmd); lra|].
    destruct (quarter_shape delta Hd) as (H1 & H2). destruct (Rle_lt_or_eq_dec _ _ Hmd) as [H|H]; [pose proof (H2 m H); lra|].
    rewrite <- H. assert (Hj : quarter_loss delta delta = delta * delta / 2) by (unfold quarter_loss; destruct (Rlt_dec delta delta); [lra | symmetry; apply join; auto]). lra.
  - destruct (fourth delta n Hd Hnd) as (u & Hu & U1 & U2 & U3 & U4). assert (Hu0 : u <> 0) by lra.
    rewrite (loss_outer _ _ _ Hd Hnd U1 U2), (weight_outer _ _ _ Hd Hnd U3 U4 Hu0).
    assert (Hu3 : 1 <= u * u * u) by nra. assert (Hdd : 0 < delta * delta) by nra.
    destruct (Rlt_or_le m delta) as [Hmd|Hmd].
    + rewrite (loss_inner _ _ Hmd). apply (Rmult_le_reg_r (u * u * u)); [lra|].
      replace ((delta * delta * (4 / 5 * (u * u * u * u * u) - 3 / 10) + / (u * u * u) / 2 * (m * m - n * n)) * (u * u * u)) with
        (delta * delta * (4 / 5 * (u * u * u * u * u) - 3 / 10) * (u * u * u) + (m * m - n * n) / 2) by (field; auto).
      assert (Hmm : m * m <= delta * delta) by nra. pose proof (amgm8 u 1 ltac:(lra) ltac:(lra)) as HA. rewrite U2.
      assert (H1 : m * m / 2 * (u * u * u) - m * m / 2 <= delta * delta / 2 * (u * u * u) - delta * delta / 2) by nra.
      assert (H2 : 0 <= delta * delta * (5 * (1 * 1 * 1 * 1 * (1 * 1 * 1 * 1)) + 3 * (u * u * u * u * (u * u * u * u)) - 8 * (1 * 1 * 1 * 1 * 1 * (u * u * u)))) by (apply Rmult_le_pos; lra).
      ring_simplify in H2. ring_simplify in H1. ring_simplify. lra.
    + destruct (fourth delta m Hd Hmd) as (v & Hv & V1 & V2 & _ & _). rewrite (loss_outer _ _ _ Hd Hmd V1 V2). rewrite V2, U2. clear V1 V2 U1 U2 U3 U4.
      apply (Rmult_le_reg_r (u * u * u)); [lra|]. pose proof (amgm8 u v ltac:(lra) ltac:(lra)) as HA.
      assert (H2 : 0 <= delta * delta * (5 * (v * v * v * v * (v * v * v * v)) + 3 * (u * u * u * u * (u * u * u * u)) - 8 * (v * v * v * v * v * (u * u * u)))) by (apply Rmult_le_pos; lra).
      match goal with |- _ <= ?b => replace b with (delta * delta * (4 / 5 * (u * u * u * u * u) - 3 / 10) * (u * u * u) + delta * delta * (v * v * (v * v) * (v * v * (v * v)) - u * u * (u * u) * (u * u * (u * u))) / 2) by (field; auto) end.
      ring_simplify in H2. ring_simplify. lra.
Qed.

(* strong convexity on a bounded range: mu with 10 mu b^3 <= 1, b^4 = B / delta *)
Lemma strongly delta B mu : 0 < delta -> delta <= B -> 0 < mu -> let b := sqrt (sqrt (B / delta)) in 10 * mu * (b * b * b) <= 1 ->
  forall n m, 0 <= n <= B -> 0 <= m <= B -> quarter_loss delta n + weight delta n * n * (m - n) + mu / 2 * ((m - n) * (m - n)) <= quarter_loss delta m.
Proof.
  intros Hd HB Hmu b Hmb. destruct (fourth delta B Hd HB) as (b' & Hb & B1 & B2 & _ & _). change (b' = b) in B1. subst b'. clearbody b.
  assert (Hcore : forall u v, 0 <= u <= b -> 0 <= v <= b -> mu / 2 * ((v * v * (v * v) - u * u * (u * u)) * (v * v * (v * v) - u * u * (u * u))) <= 4 / 5 * (v * v * v * v * v) - 4 / 5 * (u * u * u * u * u) - u * (v * v * (v * v) - u * u * (u * u))).
  { intros u v Hu Hv. set (S := v * v * v + v * v * u + v * u * u + u * u * u).
    assert (Cube : forall x y z, 0 <= x <= b -> 0 <= y <= b -> 0 <= z <= b -> 0 <= x * y * z <= b * b * b).
    { intros x y z Hx Hy Hz. assert (0 <= x * y <= b * b) by (split; [nra | apply Rmult_le_compat; lra]). split; [apply Rmult_le_pos; lra | apply Rmult_le_compat; lra]. }
    pose proof (Cube v v v Hv Hv Hv) as C1. pose proof (Cube v v u Hv Hv Hu) as C2. pose proof (Cube v u u Hv Hu Hu) as C3. pose proof (Cube u u u Hu Hu Hu) as C4.
    assert (HS : 0 <= S <= 4 * (b * b * b)) by (unfold S; lra).
    assert (HmS : mu * S <= 4 / 10) by nra.
    replace (4 / 5 * (v * v * v * v * v) - 4 / 5 * (u * u * u * u * u) - u * (v * v * (v * v) - u * u * (u * u))) with ((v - u) * (v - u) * ((4 * (v * v * v) + 3 * (v * v * u) + 2 * (v * u * u) + u * u * u) / 5)) by field.
    replace (mu / 2 * ((v * v * (v * v) - u * u * (u * u)) * (v * v * (v * v) - u * u * (u * u)))) with ((v - u) * (v - u) * (mu * S / 2 * S)) by (unfold S; field).
    apply Rmult_le_compat_l; [apply Rle_0_sqr|]. assert (H1 : mu * S / 2 * S <= S / 5) by nra. unfold S in *. lra. }
  assert (Hmu1 : mu <= 1) by (assert (1 <= b * b * b) by nra; nra). assert (Hdd : 0 < delta * delta) by nra.
  assert (Hrange : forall u, 0 <= u -> delta * (u * u * (u * u)) <= B -> u <= b).
  { intros u Hu H. destruct (Rle_or_lt u b) as [|Hc]; auto. exfalso. rewrite B2 in H. assert (b * b < u * u) by nra. assert (b * b * (b * b) < u * u * (u * u)) by nra. nra. }
  intros n m Hn Hm. destruct (Rlt_or_le n delta) as [Hnd|Hnd].
  - rewrite (loss_inner _ _ Hnd), (weight_inner _ _ Hnd). destruct (Rlt_or_le m delta) as [Hmd|Hmd].
    + rewrite (loss_inner _ _ Hmd). assert (0 <= (1 - mu) * ((m - n) * (m - n))) by (apply Rmult_le_pos; [lra | apply Rle_0_sqr]). lra.
    + destruct (fourth delta m Hd Hmd) as (v & Hv & V1 & V2 & _ & _). rewrite (loss_outer _ _ _ Hd Hmd V1 V2). pose proof (Hrange v ltac:(lra) ltac:(lra)) as Hvb.
      pose proof (Hcore 1 v ltac:(split; lra) ltac:(split; lra)) as HC. set (a := n / delta). assert (Ha : n = delta * a) by (unfold a; field; lra).
      assert (Ha1 : 0 <= a < 1) by (split; [apply (Rmult_le_reg_l delta) | apply (Rmult_lt_reg_l delta)]; try rewrite <- Ha; try rewrite Rmult_0_r; try lra). rewrite V2, Ha. clearbody a. clear V1 V2 Ha.
      set (w := v * v * (v * v)) in *. assert (Hw : 1 <= w) by (unfold w; assert (1 <= v * v) by nra; nra).
      assert (Hgap : 0 <= (1 - a) * (w - (1 + a) / 2) * (1 - mu)) by (apply Rmult_le_pos; [apply Rmult_le_pos; lra | lra]).
      match goal with |- ?x <= _ => replace x with (delta * delta * (a * w - a * a / 2 + mu / 2 * ((w - a) * (w - a)))) by field end.
      apply Rmult_le_compat_l; [lra|]. replace (1 * 1 * (1 * 1)) with 1 in HC by ring. nra.
  - destruct (fourth delta n Hd Hnd) as (u & Hu & U1 & U2 & U3 & U4). assert (Hu0 : u <> 0) by lra.
    rewrite (loss_outer _ _ _ Hd Hnd U1 U2), (weight_outer _ _ _ Hd Hnd U3 U4 Hu0). pose proof (Hrange u ltac:(lra) ltac:(lra)) as Hub.
    replace (/ (u * u * u) * n) with (delta * u) by (rewrite U2; field; auto).
    destruct (Rlt_or_le m delta) as [Hmd|Hmd].
    + rewrite (loss_inner _ _ Hmd). pose proof (Hcore u 1 ltac:(split; lra) ltac:(split; lra)) as HC. set (a := m / delta). assert (Ha : m = delta * a) by (unfold a; field; lra).
      assert (Ha1 : 0 <= a < 1) by (split; [apply (Rmult_le_reg_l delta) | apply (Rmult_lt_reg_l delta)]; try rewrite <- Ha; try rewrite Rmult_0_r; try lra). rewrite U2, Ha. clearbody a. clear U1 U2 U3 U4 Ha.
      set (w := u * u * (u * u)) in *. assert (Hw1 : mu * (w - 1) <= u - 1).
      { replace (w - 1) with ((u - 1) * (u * u * u + u * u + u + 1)) by (unfold w; ring). assert (u * u * u + u * u + u + 1 <= 4 * (u * u * u)) by nra.
        assert (H3 : u * u * u <= b * b * b) by (assert (u * u <= b * b) by nra; nra). assert (mu * (u * u * u + u * u + u + 1) <= 1) by nra. nra. }
      replace (u * u * u * u * u) with (u * w) in * by (unfold w; ring). clearbody w.
      replace (1 * 1 * (1 * 1)) with 1 in HC by ring. replace (1 * 1 * 1 * 1 * 1) with 1 in HC by ring.
      replace (delta * a * (delta * a) / 2) with (delta * delta * (a * a / 2)) by field.
      match goal with |- ?x <= _ => replace x with (delta * delta * (4 / 5 * (u * w) - 3 / 10 + u * (a - w) + mu / 2 * ((a - w) * (a - w)))) by field end.
      apply Rmult_le_compat_l; [lra|].
      assert (Hg : 0 <= (1 - a) * ((u - (1 + a) / 2) - mu * (w - (1 + a) / 2))).
      { apply Rmult_le_pos; [lra|]. assert ((1 - mu) * ((1 + a) / 2) <= (1 - mu) * 1) by (apply Rmult_le_compat_l; lra). nra. }
      nra.
    + destruct (fourth delta m Hd Hmd) as (v & Hv & V1 & V2 & _ & _). rewrite (loss_outer _ _ _ Hd Hmd V1 V2). pose proof (Hrange v ltac:(lra) ltac:(lra)) as Hvb.
      pose proof (Hcore u v ltac:(split; lra) ltac:(split; lra)) as HC. rewrite V2, U2.
      match goal with |- ?x <= _ => replace x with (delta * delta * (4 / 5 * (u * u * u * u * u) - 3 / 10 + u * (v * v * (v * v) - u * u * (u * u)) + mu / 2 * ((v * v * (v * v) - u * u * (u * u)) * (v * v * (v * v) - u * u * (u * u))))) by field end.
      apply Rmult_le_compat_l; lra.
Qed.
