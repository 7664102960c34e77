(* Proofs: exponentials of multiples of one tangent vector multiply like the multiples add. *)
From Coq Require Import List Arith Bool Lia Reals Lra.
From Verif Require Import Num NumR Py Arr MLie SpecNoise SpecLie SpecPose SpecZero SpecSpatial.
From Verif Require Import PVec PLie PPose PFrame PZero PSpatial PSpatial2.
Import ListNotations.
Local Open Scope R_scope.

Lemma len3_line s d : length d = 3%nat -> len3 (vscale s d) = Rabs s * len3 d.
Proof. apply len3_scale. Qed.
Lemma abs_cases (s : R) : Rabs s = s \/ Rabs s = - s.
Proof. destruct (Rcase_abs s); [right; apply Rabs_left | left; apply Rabs_right]; auto. Qed.
Lemma ec_line s d : length d = 3%nat -> ec (vscale s d) = cos (s * len3 d / 2).
Proof.
  intros Hd. unfold ec. rewrite len3_line by auto. destruct (abs_cases s) as [->| ->]; auto.
  replace (- s * len3 d / 2) with (- (s * len3 d / 2)) by field. apply cos_neg.
Qed.
Lemma half_sinc_mul t : half_sinc t * t = sin (t / 2).
Proof. unfold half_sinc. destruct (Req_EM_T t 0) as [->|H]; [replace (0 / 2) with 0 by field; rewrite sin_0; ring | field; auto]. Qed.
Lemma half_sinc_abs t : half_sinc (Rabs t) = half_sinc t.
Proof.
  destruct (Req_EM_T t 0) as [->|H]; [rewrite Rabs_R0; auto|]. apply (Rmult_eq_reg_r (Rabs t)); [|apply Rabs_no_R0; auto].
  rewrite half_sinc_mul. destruct (abs_cases t) as [->| ->]; [rewrite half_sinc_mul; auto|].
  replace (- t / 2) with (- (t / 2)) by field. rewrite sin_neg. replace (half_sinc t * - t) with (- (half_sinc t * t)) by ring. rewrite half_sinc_mul. auto.
Qed.
Lemma ek_line s d : length d = 3%nat -> ek (vscale s d) * (s * len3 d) = sin (s * len3 d / 2).
Proof.
  intros Hd. unfold ek. rewrite len3_line by auto.
  replace (Rabs s * len3 d) with (Rabs (s * len3 d)) by (rewrite Rabs_mult, (Rabs_right (len3 d)); auto; apply Rle_ge, len3_pos).
  rewrite half_sinc_abs, half_sinc_mul. auto.
Qed.
Lemma eb_line s d : length d = 3%nat -> eb (vscale s d) * (s * s * s * (len3 d * len3 d * len3 d)) = s * len3 d - sin (s * len3 d).
Proof.
  intros Hd. unfold eb. rewrite len3_line by auto. destruct (Req_EM_T (Rabs s * len3 d) 0) as [Hz|Hn].
  - assert (H : s * len3 d = 0) by (apply Rmult_integral in Hz; destruct Hz as [Hz| ->]; [|ring]; destruct (Req_EM_T s 0) as [->|H]; [ring|]; elim (Rabs_no_R0 s H Hz)).
    rewrite H, sin_0. ring.
  - assert (len3 d <> 0 /\ s <> 0) as [HL Hs] by (split; intros H; apply Hn; rewrite H, ?Rabs_R0; ring).
    destruct (abs_cases s) as [->| ->].
    + field. auto.
    + replace (- s * len3 d) with (- (s * len3 d)) by ring. rewrite sin_neg. field. auto.
Qed.

Lemma quat_exp_add s t d : length d = 3%nat -> quat_mul (quat_exp (vscale s d)) (quat_exp (vscale t d)) = quat_exp (vscale (s + t) d).
Proof.
  intros Hd. rewrite !quat_exp_form, !ec_line by auto. set (L := len3 d).
  destruct (Req_EM_T L 0) as [Hz|Hn].
  - destruct (zero3 d Hz) as (H0 & H1 & H2). unfold L in *. rewrite Hz. rewrite !nth_vscale, H0, H1, H2. rewrite !Rmult_0_r. unfold Rdiv. rewrite !Rmult_0_l, cos_0. unfold quat_mul. cbn [nth]. lists; ring.
  - pose proof (ek_line s d Hd) as Ks. pose proof (ek_line t d Hd) as Kt. pose proof (ek_line (s + t) d Hd) as K. fold L in Ks, Kt, K.
    set (ks := ek (vscale s d)) in *. set (kt := ek (vscale t d)) in *. set (k := ek (vscale (s + t) d)) in *.
    replace ((s + t) * L / 2) with (s * L / 2 + t * L / 2) in * by field. rewrite cos_plus. rewrite sin_plus in K. rewrite !nth_vscale.
    assert (HL : d.[0] * d.[0] + d.[1] * d.[1] + d.[2] * d.[2] = L * L) by (symmetry; apply len3_eq).
    assert (Kk : k * (s + t) = ks * s * cos (t * L / 2) + cos (s * L / 2) * (kt * t)).
    { apply (Rmult_eq_reg_r L); auto. replace (k * (s + t) * L) with (k * ((s + t) * L)) by ring. rewrite K, <- Ks, <- Kt. ring. }
    unfold quat_mul. cbn [nth]. lists.
    + rewrite <- Ks, <- Kt. replace (ks * (s * L) * (kt * (t * L))) with (ks * s * (kt * t) * (L * L)) by ring. rewrite <- HL. ring.
    + replace (k * ((s + t) * d.[0])) with (k * (s + t) * d.[0]) by ring. rewrite Kk. ring.
    + replace (k * ((s + t) * d.[1])) with (k * (s + t) * d.[1]) by ring. rewrite Kk. ring.
    + replace (k * ((s + t) * d.[2])) with (k * (s + t) * d.[2]) by ring. rewrite Kk. ring.
Qed.

Lemma vee_form s w v : length w = 3%nat -> length v = 3%nat -> len3 w <> 0 ->
  let L := len3 w in
  vee (vscale s w) (vscale s v) = vadd (vscale s v) (vadd (vscale ((1 - cos (s * L)) / (L * L)) (cross w v)) (vscale ((s * L - sin (s * L)) / (L * L * L)) (cross w (cross w v)))).
Proof.
  intros Hw Hv HL L. unfold vee. pose proof (ek_line s w Hw) as K. pose proof (eb_line s w Hw) as B. fold L in K, B, HL.
  set (k := ek (vscale s w)) in *. set (b := eb (vscale s w)) in *.
  assert (E1 : (1 - cos (s * L)) / (L * L) = 2 * k * k * (s * s)).
  { rewrite cos_half, <- K. field. auto. }
  assert (E2 : (s * L - sin (s * L)) / (L * L * L) = b * (s * s * s)) by (rewrite <- B; field; auto).
  rewrite E1, E2. unfold lin3. three w. three v. vecs. lists; ring.
Qed.
Lemma rotate_form s w u : length w = 3%nat -> length u = 3%nat -> len3 w <> 0 ->
  let L := len3 w in
  rotate (quat_exp (vscale s w)) u = vadd u (vadd (vscale (sin (s * L) / L) (cross w u)) (vscale ((1 - cos (s * L)) / (L * L)) (cross w (cross w u)))).
Proof.
  intros Hw Hu HL L. rewrite rodrigues by auto. pose proof (ek_line s w Hw) as K. pose proof (ec_line s w Hw) as B. fold L in K, B, HL.
  set (k := ek (vscale s w)) in *. set (c := ec (vscale s w)) in *.
  assert (E1 : (1 - cos (s * L)) / (L * L) = 2 * k * k * (s * s)).
  { rewrite cos_half, <- K. field. auto. }
  assert (E2 : sin (s * L) / L = 2 * c * k * s) by (rewrite sin_half, <- K, B; field; auto).
  rewrite E1, E2. unfold lin3. three w. three u. vecs. lists; ring.
Qed.
Lemma sq_len w : length w = 3%nat -> w.[0] * w.[0] + w.[1] * w.[1] + w.[2] * w.[2] = len3 w * len3 w.
Proof. intros _. symmetry. apply len3_eq. Qed.

Lemma vee_add_line s t w v : length w = 3%nat -> length v = 3%nat ->
  vadd (rotate (quat_exp (vscale s w)) (vee (vscale t w) (vscale t v))) (vee (vscale s w) (vscale s v)) = vee (vscale (s + t) w) (vscale (s + t) v).
Proof.
  intros Hw Hv. destruct (Req_EM_T (len3 w) 0) as [Hz|Hn].
  - assert (Z : forall x, len3 (vscale x w) = 0) by (intros x; rewrite len3_line, Hz by auto; ring).
    assert (V : forall x u, length u = 3%nat -> vee (vscale x w) u = u) by (intros x u Hu; apply lin3_zero; auto).
    rewrite !V, rodrigues, lin3_zero by (rewrite ?vscale_length; auto). three v. vecs. lists; ring.
  - rewrite !vee_form by auto. cbv zeta. rewrite rotate_form by (auto; three w; three v; vecs; reflexivity). cbv zeta. set (L := len3 w) in *.
    assert (HL : w.[0] * w.[0] + w.[1] * w.[1] + w.[2] * w.[2] = L * L) by (symmetry; apply len3_eq).
    replace ((s + t) * L) with (s * L + t * L) by ring. rewrite cos_plus, sin_plus. clearbody L.
    set (ca := cos (s * L)). set (sa := sin (s * L)). set (cb := cos (t * L)). set (sb := sin (t * L)).
    set (u1 := cross w v). set (u2 := cross w u1).
    assert (C3 : cross w u2 = vscale (- (L * L)) u1) by (unfold u2, u1; rewrite <- HL; three w; three v; vecs; lists; ring).
    assert (Lin : forall a b c, cross w (vadd (vscale a v) (vadd (vscale b u1) (vscale c u2))) = vadd (vscale a u1) (vadd (vscale b u2) (vscale c (cross w u2)))).
    { intros a b c. unfold u2, u1. three w. three v. vecs. lists; ring. }
    assert (Lin2 : forall a b c, cross w (vadd (vscale a u1) (vadd (vscale b u2) (vscale c (vscale (- (L * L)) u1)))) = vadd (vscale a u2) (vadd (vscale b (cross w u2)) (vscale c (vscale (- (L * L)) u2)))).
    { intros a b c. unfold u2, u1. three w. three v. vecs. lists; ring. }
    rewrite Lin, C3, Lin2, C3.
    assert (L1 : length u1 = 3%nat) by reflexivity. assert (L2 : length u2 = 3%nat) by reflexivity. clearbody u1 u2. clear Lin Lin2 C3.
    three u1. three u2. three v. vecs. unfold Rdiv. lists; field; auto.
Qed.

Lemma se3_exp_add s t d : length d = 6%nat -> se3_mul (se3_exp (vscale s d)) (se3_exp (vscale t d)) = se3_exp (vscale (s + t) d).
Proof.
  intros Hd. unfold se3_mul. rewrite !se3_exp_rot, !se3_exp_tra. rewrite se3_exp_form.
  assert (Rv : forall x, rotv (vscale x d) = vscale x (rotv d)) by (intros x; unfold rotv; rewrite !nth_vscale; reflexivity).
  assert (Tv : forall x, trav (vscale x d) = vscale x (trav d)) by (intros x; unfold trav; rewrite !nth_vscale; reflexivity).
  rewrite !Rv, !Tv. rewrite quat_exp_add by reflexivity. f_equal. rewrite apply_rotate. apply (vee_add_line s t (rotv d) (trav d)); reflexivity.
Qed.

Lemma v_s_line s k : v_s (s * k) * (s * k) = sin (s * k).
Proof. generalize (s * k). intros t. unfold v_s. destruct (Req_EM_T t 0) as [->|H]; [rewrite sin_0; ring | field; auto]. Qed.
Lemma v_c_line s k : v_c (s * k) * (s * k) = 1 - cos (s * k).
Proof. generalize (s * k). intros t. unfold v_c. destruct (Req_EM_T t 0) as [->|H]; [rewrite cos_0; ring | field; auto]. Qed.
Lemma se2_exp_add s t d : length d = 3%nat -> se2_mul (se2_exp (vscale s d)) (se2_exp (vscale t d)) = se2_exp (vscale (s + t) d).
Proof.
  intros Hd. unfold se2_mul, se2_exp. rewrite !nth_vscale. cbn [nth]. set (k := d.[2]). set (x := d.[0]). set (y := d.[1]).
  destruct (Req_EM_T k 0) as [->|Hk].
  - rewrite !Rmult_0_r, sin_0, cos_0. unfold v_s, v_c. destruct (Req_EM_T 0 0); [|contradiction]. lists; ring.
  - pose proof (v_s_line s k) as S1. pose proof (v_s_line t k) as S2. pose proof (v_s_line (s + t) k) as S3.
    pose proof (v_c_line s k) as C1. pose proof (v_c_line t k) as C2. pose proof (v_c_line (s + t) k) as C3.
    replace ((s + t) * k) with (s * k + t * k) in * by ring. rewrite sin_plus in *. rewrite cos_plus in *.
    set (a := v_s (s * k)) in *. set (b := v_s (t * k)) in *. set (c := v_s (s * k + t * k)) in *.
    set (a' := v_c (s * k)) in *. set (b' := v_c (t * k)) in *. set (c' := v_c (s * k + t * k)) in *.
    set (sa := sin (s * k)) in *. set (ca := cos (s * k)) in *. set (sb := sin (t * k)) in *. set (cb := cos (t * k)) in *.
    assert (A1 : a * s = sa / k) by (rewrite <- S1; field; auto). assert (A2 : b * t = sb / k) by (rewrite <- S2; field; auto).
    assert (B1 : a' * s = (1 - ca) / k) by (rewrite <- C1; field; auto). assert (B2 : b' * t = (1 - cb) / k) by (rewrite <- C2; field; auto).
    assert (A3 : c * (s + t) = (sa * cb + ca * sb) / k) by (rewrite <- S3; field; auto).
    assert (B3 : c' * (s + t) = (1 - (ca * cb - sa * sb)) / k) by (rewrite <- C3; field; auto).
    clearbody a b c a' b' c' sa ca sb cb. clear S1 S2 S3 C1 C2 C3.
    lists.
    + replace (ca * (b * (t * x) - b' * (t * y)) - sa * (b' * (t * x) + b * (t * y)) + (a * (s * x) - a' * (s * y)))
        with (ca * ((b * t) * x - (b' * t) * y) - sa * ((b' * t) * x + (b * t) * y) + ((a * s) * x - (a' * s) * y)) by ring.
      replace (c * ((s + t) * x) - c' * ((s + t) * y)) with ((c * (s + t)) * x - (c' * (s + t)) * y) by ring.
      rewrite A1, A2, A3, B1, B2, B3. field. auto.
    + replace (sa * (b * (t * x) - b' * (t * y)) + ca * (b' * (t * x) + b * (t * y)) + (a' * (s * x) + a * (s * y)))
        with (sa * ((b * t) * x - (b' * t) * y) + ca * ((b' * t) * x + (b * t) * y) + ((a' * s) * x + (a * s) * y)) by ring.
      replace (c' * ((s + t) * x) + c * ((s + t) * y)) with ((c' * (s + t)) * x + (c * (s + t)) * y) by ring.
      rewrite A1, A2, A3, B1, B2, B3. field. auto.
Qed.
Lemma so2_exp_add s t d : so2_mul (so2_exp (vscale s d)) (so2_exp (vscale t d)) = so2_exp (vscale (s + t) d).
Proof. unfold so2_mul, so2_exp. rewrite !nth_vscale. cbn [nth]. rewrite Rmult_plus_distr_r, cos_plus, sin_plus. lists; ring. Qed.

Lemma exp_add raw s t d : known raw -> length d = lg_dim raw -> lg_mul raw (lg_exp raw (vscale s d)) (lg_exp raw (vscale t d)) = lg_exp raw (vscale (s + t) d).
Proof.
  intros [[]|[]] Hd; [apply so2_exp_add | apply se2_exp_add; auto | apply quat_exp_add; auto | apply se3_exp_add; auto].
Qed.
