(* Proofs: the exponential of the rotation groups brings rotations no farther apart than the
   rotation vectors. *)
From Coq Require Import List Arith Bool Lia Reals Lra ZArith.
From Verif Require Import Num NumR Py Arr MLie SpecNoise SpecDeriv SpecLie SpecPose SpecZero SpecSpatial SpecSettle.
From Verif Require Import PVec PDeriv PLie PPose PFrame PZero PJacZero PSpatial PSpatial2 PSpatial3 PSolverR PLoss PSettle1 PSettle2 PSettle3.
Import ListNotations.
Local Open Scope R_scope.

(* sin t / t decreases *)
Lemma tan_side t : 0 <= t <= PI -> t * cos t <= sin t.
Proof.
  intros Ht. destruct (Req_dec t 0) as [->|Hne]; [rewrite sin_0; lra|].
  set (f := fun t => sin t - t * cos t). assert (Hd : forall x, derivable_pt_lim f x (x * sin x)).
  { intros x. unfold f. replace (x * sin x) with (cos x - (1 * cos x + x * - sin x)) by ring. apply (derivable_pt_lim_minus sin (fun t => t * cos t)); [apply derivable_pt_lim_sin|].
    apply (derivable_pt_lim_mult (fun t => t) cos); [apply derivable_pt_lim_id | apply derivable_pt_lim_cos]. }
  destruct (MVT_cor2 f (fun x => x * sin x) 0 t) as (c & Hc & Hr); [lra | intros; apply Hd|]. unfold f in Hc. rewrite sin_0 in Hc.
  assert (0 <= sin c) by (apply sin_ge_0; lra). assert (0 <= c * sin c * (t - 0)) by (apply Rmult_le_pos; [apply Rmult_le_pos; lra | lra]). lra.
Qed.
Lemma sin_ratio s t : 0 < s -> s <= t -> t <= PI -> sin t * s <= sin s * t.
Proof.
  intros Hs Hst Ht. destruct (Req_dec s t) as [->|Hne]; [lra|].
  set (f := fun x => sin x / x). assert (Hd : forall x, s <= x <= t -> derivable_pt_lim f x ((x * cos x - sin x) / (x * x))).
  { intros x Hx. unfold f. replace ((x * cos x - sin x) / (x * x)) with ((cos x * x - 1 * sin x) / Rsqr x) by (unfold Rsqr; field; lra).
    apply (derivable_pt_lim_div sin (fun x => x)); [apply derivable_pt_lim_sin | apply derivable_pt_lim_id | lra]. }
  destruct (MVT_cor2 f (fun x => (x * cos x - sin x) / (x * x)) s t) as (c & Hc & Hr); [lra | exact Hd|]. unfold f in Hc.
  assert (Hn : (c * cos c - sin c) / (c * c) <= 0).
  { pose proof (tan_side c ltac:(lra)). unfold Rdiv. assert (0 < / (c * c)) by (apply Rinv_0_lt_compat; nra). nra. }
  unfold Rdiv at 1 2 in Hc. assert (sin t * / t <= sin s * / s) by nra. apply (Rmult_le_reg_r (/ (s * t))); [apply Rinv_0_lt_compat; nra|].
  replace (sin t * s * / (s * t)) with (sin t * / t) by (field; lra). replace (sin s * t * / (s * t)) with (sin s * / s) by (field; lra). auto.
Qed.
(* cos lies above its parabolas *)
Lemma cos_parabola s t : 0 < s <= PI -> 0 <= t <= PI -> cos s - sin s / (2 * s) * (t * t - s * s) <= cos t.
Proof.
  intros Hs Ht. set (m := sin s / (2 * s)). set (f := fun t => cos t + m * (t * t)).
  assert (Hd : forall x, derivable_pt_lim f x (- sin x + m * (1 * x + x * 1))).
  { intros x. unfold f. apply (derivable_pt_lim_plus cos (fun t => m * (t * t))); [apply derivable_pt_lim_cos|].
    apply (derivable_pt_lim_scal (fun t => t * t)). apply (derivable_pt_lim_mult (fun t => t) (fun t => t)); apply derivable_pt_lim_id. }
  assert (Hm : forall x, m * (1 * x + x * 1) = sin s * x / s) by (intros x; unfold m; field; lra).
  cut (f s <= f t); [unfold f; lra|]. destruct (Rtotal_order s t) as [H|[->|H]]; [|lra|].
  - destruct (MVT_cor2 f _ s t H (fun c _ => Hd c)) as (c & Hc & Hr). rewrite Hm in Hc. pose proof (sin_ratio s c ltac:(lra) ltac:(lra) ltac:(lra)) as Hsr.
    assert (sin c <= sin s * c / s). { apply (Rmult_le_reg_r s); [lra|]. unfold Rdiv. rewrite Rmult_assoc, Rinv_l, Rmult_1_r by lra. auto. } nra.
  - destruct (MVT_cor2 f _ t s H (fun c _ => Hd c)) as (c & Hc & Hr). rewrite Hm in Hc. pose proof (sin_ratio c s ltac:(lra) ltac:(lra) ltac:(lra)) as Hsr.
    assert (sin s * c / s <= sin c). { apply (Rmult_le_reg_r s); [lra|]. unfold Rdiv. rewrite Rmult_assoc, Rinv_l, Rmult_1_r by lra. auto. } nra.
Qed.
Lemma cos_top t : 0 <= t -> 1 - t * t / 2 <= cos t.
Proof.
  intros Ht. destruct (Req_dec t 0) as [->|Hne]; [rewrite cos_0; lra|]. set (f := fun t => cos t + / 2 * (t * t)).
  assert (Hd : forall x, derivable_pt_lim f x (- sin x + / 2 * (1 * x + x * 1))).
  { intros x. unfold f. apply (derivable_pt_lim_plus cos (fun t => / 2 * (t * t))); [apply derivable_pt_lim_cos|].
    apply (derivable_pt_lim_scal (fun t => t * t)). apply (derivable_pt_lim_mult (fun t => t) (fun t => t)); apply derivable_pt_lim_id. }
  destruct (MVT_cor2 f _ 0 t ltac:(lra) (fun c _ => Hd c)) as (c & Hc & Hr). unfold f in Hc. rewrite cos_0 in Hc. pose proof (sin_lt_x c ltac:(lra)). nra.
Qed.

(* the spherical law of cosines against the plane one *)
Lemma law_near a b c D : 0 <= a -> 0 <= b -> a + b <= PI -> -1 <= c <= 1 -> 0 <= D -> D * D = a * a + b * b - 2 * a * b * c -> cos D <= cos a * cos b + c * (sin a * sin b).
Proof.
  intros Ha Hb Hab Hc HD E. pose proof PI_RGT_0 as Hpi. assert (Hp : 0 <= a * b) by nra.
  assert (HD' : D <= PI) by (apply Rsqr_incr_0_var; [unfold Rsqr; nra | lra]).
  assert (Hs : forall m, cos D - m * ((a - b) * (a - b) - D * D) <= cos (a - b) -> cos D - m * ((a + b) * (a + b) - D * D) <= cos (a + b) -> cos D <= cos a * cos b + c * (sin a * sin b)).
  { intros m H1 H2. rewrite cos_minus in H1. rewrite cos_plus in H2. rewrite E in H1, H2.
    assert (H1' : (1 + c) * (cos D - m * ((a - b) * (a - b) - (a * a + b * b - 2 * a * b * c))) <= (1 + c) * (cos a * cos b + sin a * sin b)) by (apply Rmult_le_compat_l; lra).
    assert (H2' : (1 - c) * (cos D - m * ((a + b) * (a + b) - (a * a + b * b - 2 * a * b * c))) <= (1 - c) * (cos a * cos b - sin a * sin b)) by (apply Rmult_le_compat_l; lra).
    lra. }
  assert (Hab' : Rabs (a - b) <= PI) by (apply Rabs_le; lra). pose proof (Rabs_pos (a - b)).
  assert (Hcab : cos (Rabs (a - b)) = cos (a - b)) by (destruct (abs_cases (a - b)) as [->| ->]; [auto | apply cos_neg]).
  assert (Hsab : Rabs (a - b) * Rabs (a - b) = (a - b) * (a - b)) by (symmetry; apply (Rsqr_abs (a - b))).
  destruct (Req_dec D 0) as [HD0|HD0].
  - apply (Hs (/ 2)); rewrite HD0, cos_0.
    + pose proof (cos_top (Rabs (a - b)) ltac:(lra)) as H0. rewrite Hcab, Hsab in H0. lra.
    + pose proof (cos_top (a + b) ltac:(lra)). lra.
  - apply (Hs (sin D / (2 * D))).
    + rewrite <- Hcab, <- Hsab. apply cos_parabola; lra.
    + apply cos_parabola; lra.
Qed.
Lemma law_all n : forall a b c D, 0 <= a -> 0 <= b -> a + b <= PI * (1 + 2 * INR n) -> -1 <= c <= 1 -> 0 <= D <= PI / 2 -> D * D = a * a + b * b - 2 * a * b * c -> cos D <= cos a * cos b + c * (sin a * sin b).
Proof.
  pose proof PI_RGT_0 as Hpi. induction n as [|n IH]; intros a b c D Ha Hb Hab Hc HD E.
  - apply law_near; auto; [cbn in Hab; lra | lra].
  - destruct (Rle_or_lt (a + b) PI) as [Hs|Hs]; [apply law_near; auto; lra|].
    assert (Hdiff : -(PI / 2) <= a - b <= PI / 2).
    { assert (Hq : (a - b) * (a - b) <= (PI / 2) * (PI / 2)) by (assert (D * D <= PI / 2 * (PI / 2)) by nra; assert (0 <= a * b) by nra; nra). split; nra. }
    assert (Hcos : forall x, cos (x - PI) = - cos x) by (intros x; rewrite cos_minus, cos_PI, sin_PI; ring).
    assert (Hsin : forall x, sin (x - PI) = - sin x) by (intros x; rewrite sin_minus, cos_PI, sin_PI; ring).
    set (D2 := a * a + b * b - 2 * a * b * c - 2 * PI * (a + b - PI) * (1 - c)).
    assert (HD2 : 0 <= D2 <= D * D).
    { split; [|unfold D2; rewrite E; assert (0 <= PI * ((a + b - PI) * (1 - c))) by (apply Rmult_le_pos; [lra | apply Rmult_le_pos; lra]); lra].
      unfold D2. replace (a * a + b * b - 2 * a * b * c - 2 * PI * (a + b - PI) * (1 - c)) with ((a - b) * (a - b) * ((1 + c) / 2) + (a + b - 2 * PI) * (a + b - 2 * PI) * ((1 - c) / 2)) by field.
      pose proof (Rle_0_sqr (a - b)) as G1. pose proof (Rle_0_sqr (a + b - 2 * PI)) as G2. unfold Rsqr in *. nra. }
    set (D' := sqrt D2). assert (HDD : D' * D' = D2) by (apply sqrt_sqrt; lra). assert (HD' : 0 <= D') by apply sqrt_pos.
    assert (Hle : D' <= D) by (apply Rsqr_incr_0_var; [unfold Rsqr; lra | lra]).
    apply Rle_trans with (cos D'); [apply cos_decr_1; lra|].
    destruct (Rle_or_lt PI a) as [Ha'|Ha']; destruct (Rle_or_lt PI b) as [Hb'|Hb'].
    + replace (cos a * cos b + c * (sin a * sin b)) with (cos (a - PI) * cos (b - PI) + c * (sin (a - PI) * sin (b - PI))) by (rewrite !Hcos, !Hsin; ring).
      apply IH; try lra; [rewrite S_INR in Hab; lra | rewrite HDD; unfold D2; ring].
    + replace (cos a * cos b + c * (sin a * sin b)) with (cos (a - PI) * cos (PI - b) + (- c) * (sin (a - PI) * sin (PI - b))) by (replace (PI - b) with (- (b - PI)) by ring; rewrite cos_neg, sin_neg, !Hcos, !Hsin; ring).
      apply law_near; try lra. rewrite HDD; unfold D2; ring.
    + replace (cos a * cos b + c * (sin a * sin b)) with (cos (PI - a) * cos (b - PI) + (- c) * (sin (PI - a) * sin (b - PI))) by (replace (PI - a) with (- (a - PI)) by ring; rewrite cos_neg, sin_neg, !Hcos, !Hsin; ring).
      apply law_near; try lra. rewrite HDD; unfold D2; ring.
    + replace (cos a * cos b + c * (sin a * sin b)) with (cos (PI - a) * cos (PI - b) + c * (sin (PI - a) * sin (PI - b))) by (replace (PI - a) with (- (a - PI)) by ring; replace (PI - b) with (- (b - PI)) by ring; rewrite !cos_neg, !sin_neg, !Hcos, !Hsin; ring).
      apply law_near; try lra. rewrite HDD; unfold D2; ring.
Qed.

(* ---- the exponential of SO(3) shortens distances ---- *)
Lemma nat_above x : exists n, x < INR n.
Proof.
  exists (Z.to_nat (up x)). rewrite INR_IZR_INZ. destruct (archimed x) as (H & _). eapply Rlt_le_trans; [exact H|]. apply IZR_le. lia.
Qed.
Lemma conj_norm q : norm4 (quat_conj q) = norm4 q.
Proof. unfold norm4, quat_conj. cbn [nth]. ring. Qed.
Lemma quat_short d e : length d = 3%nat -> length e = 3%nat -> len3 (quat_log (quat_mul (quat_conj (quat_exp d)) (quat_exp e))) <= len3 (vsub e d).
Proof.
  intros Hd He. pose proof PI_RGT_0 as Hpi. set (q := quat_mul (quat_conj (quat_exp d)) (quat_exp e)).
  assert (Hn : norm4 q = 1) by (unfold q; rewrite quat_norm, conj_norm, !quat_exp_norm; ring).
  assert (Hl : length q = 4%nat) by reflexivity. rewrite (quat_angle q Hl Hn).
  set (D := len3 (vsub e d) / 2). assert (HD0 : 0 <= D) by (unfold D; pose proof (len3_pos (vsub e d)); lra).
  pose proof (abs_unit q Hn) as Ha1.
  enough (acos (Rabs q.[0]) <= D) by (unfold D in *; lra).
  destruct (Rle_or_lt (PI / 2) D) as [Hbig|Hsm].
  { assert (acos (Rabs q.[0]) <= PI / 2); [|lra]. destruct (Rle_or_lt (acos (Rabs q.[0])) (PI / 2)) as [|Hlt]; auto. exfalso.
    pose proof (acos_bound (Rabs q.[0])). assert (cos (acos (Rabs q.[0])) < cos (PI / 2)) by (apply cos_decreasing_1; lra). rewrite cos_acos, cos_PI2 in * by lra. lra. }
  set (a := len3 d / 2). set (b := len3 e / 2). pose proof (len3_pos d) as Pd. pose proof (len3_pos e) as Pe.
  set (p := d.[0] * e.[0] + d.[1] * e.[1] + d.[2] * e.[2]).
  assert (Hp : p * p <= (len3 d * len3 d) * (len3 e * len3 e)).
  { rewrite !len3_sqr. unfold p. pose proof (Rle_0_sqr (d.[0] * e.[1] - d.[1] * e.[0])). pose proof (Rle_0_sqr (d.[0] * e.[2] - d.[2] * e.[0])). pose proof (Rle_0_sqr (d.[1] * e.[2] - d.[2] * e.[1])). unfold Rsqr in *. lra. }
  assert (Hc : exists c, -1 <= c <= 1 /\ p = len3 d * len3 e * c).
  { destruct (Req_dec (len3 d * len3 e) 0) as [H0|H0].
    - exists 0. split; [lra|]. replace (len3 d * len3 d * (len3 e * len3 e)) with ((len3 d * len3 e) * (len3 d * len3 e)) in Hp by ring. rewrite H0 in Hp. nra.
    - exists (p / (len3 d * len3 e)). split; [|field; nra]. assert (Hpos : 0 < len3 d * len3 e) by nra.
      assert (Hpp : - (len3 d * len3 e) <= p <= len3 d * len3 e) by (split; nra).
      split; apply (Rmult_le_reg_r (len3 d * len3 e)); auto; unfold Rdiv; rewrite ?Rmult_assoc, Rinv_l by lra; lra. }
  destruct Hc as (c & Hc & Ep).
  assert (Eq : q.[0] = cos a * cos b + c * (sin a * sin b)).
  { unfold q. rewrite !quat_exp_form. unfold quat_conj, quat_mul. cbn [nth]. unfold ec, ek. rewrite <- (half_sinc_mul (len3 d)), <- (half_sinc_mul (len3 e)) || idtac.
    unfold a, b. rewrite <- (half_sinc_mul (len3 d)), <- (half_sinc_mul (len3 e)).
    replace (c * (half_sinc (len3 d) * len3 d * (half_sinc (len3 e) * len3 e))) with (half_sinc (len3 d) * half_sinc (len3 e) * p) by (rewrite Ep; ring). unfold p. ring. }
  assert (ED : D * D = a * a + b * b - 2 * a * b * c).
  { unfold D, a, b. replace (len3 (vsub e d) / 2 * (len3 (vsub e d) / 2)) with ((len3 (vsub e d) * len3 (vsub e d)) / 4) by field.
    replace (len3 d / 2 * (len3 d / 2) + len3 e / 2 * (len3 e / 2) - 2 * (len3 d / 2) * (len3 e / 2) * c) with ((len3 d * len3 d + len3 e * len3 e - 2 * p) / 4) by (rewrite Ep; field).
    f_equal. rewrite !len3_sqr. unfold p. three d. three e. unfold vsub. cbn. ring. }
  destruct (nat_above ((a + b) / PI)) as (n & Hn').
  assert (Hab : a + b <= PI * (1 + 2 * INR n)).
  { assert ((a + b) / PI * PI <= (1 + 2 * INR n) * PI) by (apply Rmult_le_compat_r; [lra|]; pose proof (pos_INR n); lra). replace ((a + b) / PI * PI) with (a + b) in * by (field; lra). lra. }
  pose proof (law_all n a b c D ltac:(unfold a; lra) ltac:(unfold b; lra) Hab Hc ltac:(lra) ED) as HL. rewrite <- Eq in HL.
  destruct (Rle_or_lt (acos (Rabs q.[0])) D) as [|Hlt]; auto. exfalso. pose proof (acos_bound (Rabs q.[0])).
  assert (cos (acos (Rabs q.[0])) < cos D) by (apply cos_decreasing_1; lra). rewrite cos_acos in * by lra. pose proof (Rle_abs q.[0]). lra.
Qed.
