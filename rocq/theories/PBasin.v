(* Proofs: quantities of first and second order in a small bound u, and the elementary
   functions of the exponential and logarithm maps near angle 0. *)
From Coq Require Import List Arith Bool Lia Reals Lra Psatz.
From Verif Require Import Num NumR MLie SpecLie SpecPose SpecSpatial PVec PLie PExLie PFrame PZero PJacZero PSpatial PSpatial2 PSpatial3.
Import ListNotations.
Local Open Scope R_scope.

Section Order.
Context {P : Type}.
Variable u : P -> R.
Hypothesis Hu : forall p, 0 <= u p.

(* |f p| <= C (u p)^k where u is small *)
Definition O (k : nat) (f : P -> R) : Prop := exists C d, 0 <= C /\ 0 < d /\ forall p, u p <= d -> Rabs (f p) <= C * u p ^ k.

Lemma pow_pos k p : 0 <= u p ^ k. Proof. apply pow_le. auto. Qed.
Lemma O_local k f g d : 0 < d -> (forall p, u p <= d -> f p = g p) -> O k f -> O k g.
Proof.
  intros Hd E (C & d' & HC & Hd' & H). exists C, (Rmin d d'). split; auto. split; [apply Rmin_pos; auto|]. intros p Hp.
  rewrite <- E; [apply H|]; eapply Rle_trans; try exact Hp; [apply Rmin_r | apply Rmin_l].
Qed.
Lemma O_ext k f g : (forall p, f p = g p) -> O k f -> O k g.
Proof. intros E. apply (O_local k f g 1); [lra | auto]. Qed.
Lemma O_bound k f g d : 0 < d -> (forall p, u p <= d -> Rabs (f p) <= Rabs (g p)) -> O k g -> O k f.
Proof.
  intros Hd E (C & d' & HC & Hd' & H). exists C, (Rmin d d'). split; auto. split; [apply Rmin_pos; auto|]. intros p Hp.
  eapply Rle_trans; [apply E | apply H]; eapply Rle_trans; try exact Hp; [apply Rmin_l | apply Rmin_r].
Qed.
Lemma O_add k f g : O k f -> O k g -> O k (fun p => f p + g p).
Proof.
  intros (C & d & HC & Hd & H) (C' & d' & HC' & Hd' & H'). exists (C + C'), (Rmin d d'). split; [lra|]. split; [apply Rmin_pos; auto|]. intros p Hp.
  eapply Rle_trans; [apply Rabs_triang|]. rewrite Rmult_plus_distr_r. apply Rplus_le_compat; [apply H | apply H']; eapply Rle_trans; try exact Hp; [apply Rmin_l | apply Rmin_r].
Qed.
Lemma O_opp k f : O k f -> O k (fun p => - f p).
Proof. intros H. apply (O_bound k _ f 1); [lra| |auto]. intros p _. rewrite Rabs_Ropp. lra. Qed.
Lemma O_sub k f g : O k f -> O k g -> O k (fun p => f p - g p).
Proof. intros H H'. apply (O_ext k (fun p => f p + - g p)); [intros; ring|]. apply O_add; auto. apply O_opp; auto. Qed.
Lemma O_mul j k f g : O j f -> O k g -> O (j + k) (fun p => f p * g p).
Proof.
  intros (C & d & HC & Hd & H) (C' & d' & HC' & Hd' & H'). exists (C * C'), (Rmin d d'). split; [apply Rmult_le_pos; auto|]. split; [apply Rmin_pos; auto|]. intros p Hp.
  rewrite Rabs_mult, pow_add. replace (C * C' * (u p ^ j * u p ^ k)) with ((C * u p ^ j) * (C' * u p ^ k)) by ring.
  apply Rmult_le_compat; try apply Rabs_pos; [apply H | apply H']; eapply Rle_trans; try exact Hp; [apply Rmin_l | apply Rmin_r].
Qed.
Lemma O_const c : O 0 (fun _ => c).
Proof. exists (Rabs c), 1. split; [apply Rabs_pos|]. split; [lra|]. intros p _. cbn. lra. Qed.
Lemma O_zero k : O k (fun _ => 0).
Proof. exists 0, 1. split; [lra|]. split; [lra|]. intros p _. rewrite Rabs_R0. lra. Qed.
Lemma O_down k f : O (S k) f -> O k f.
Proof.
  intros (C & d & HC & Hd & H). exists C, (Rmin d 1). split; auto. split; [apply Rmin_pos; lra|]. intros p Hp.
  eapply Rle_trans; [apply H; eapply Rle_trans; [exact Hp | apply Rmin_l]|]. apply Rmult_le_compat_l; auto. cbn.
  assert (u p <= 1) by (eapply Rle_trans; [exact Hp | apply Rmin_r]). pose proof (pow_pos k p). pose proof (Hu p). nra.
Qed.
Lemma O_mul_0 k f g : O 0 f -> O k g -> O k (fun p => f p * g p).
Proof. apply (O_mul 0 k). Qed.
Lemma O_mul_1 f g : O 1 f -> O 1 g -> O 2 (fun p => f p * g p).
Proof. apply (O_mul 1 1). Qed.
Lemma O_scale k c f : O k f -> O k (fun p => c * f p).
Proof. apply (O_mul_0 k (fun _ => c)), O_const. Qed.
Lemma O_around k c f : O k (fun p => f p - c) -> O 0 f.
Proof.
  intros H. apply (O_ext 0 (fun p => (f p - c) + c)); [intros; ring|]. apply O_add; [|apply O_const]. induction k; auto. apply IHk. apply O_down; auto.
Qed.
Lemma O_small k f eps : O (S k) f -> 0 < eps -> exists d, 0 < d /\ forall p, u p <= d -> Rabs (f p) < eps.
Proof.
  intros H He. assert (H1 : O 1 f) by (clear He; induction k; auto; apply IHk; apply O_down; auto). destruct H1 as (C & d & HC & Hd & H1).
  exists (Rmin d (eps / (2 * (C + 1)))). assert (0 < eps / (2 * (C + 1))) by (apply Rdiv_lt_0_compat; lra). split; [apply Rmin_pos; auto|].
  intros p Hp. assert (u p <= d) by (eapply Rle_trans; [exact Hp | apply Rmin_l]). assert (Hq : u p <= eps / (2 * (C + 1))) by (eapply Rle_trans; [exact Hp | apply Rmin_r]).
  eapply Rle_lt_trans; [apply H1; auto|]. cbn. rewrite Rmult_1_r. apply Rle_lt_trans with ((C + 1) * (eps / (2 * (C + 1)))); [|replace ((C + 1) * (eps / (2 * (C + 1)))) with (eps / 2) by (field; lra); lra].
  apply Rmult_le_compat; auto; lra.
Qed.
(* |phi t - phi 0| <= C |t| near 0 *)
Definition lip (phi : R -> R) : Prop := exists C d, 0 <= C /\ 0 < d /\ forall t, Rabs t <= d -> Rabs (phi t - phi 0) <= C * Rabs t.
Lemma O_comp phi f k : lip phi -> O (S k) f -> O (S k) (fun p => phi (f p) - phi 0).
Proof.
  intros (C & d & HC & Hd & H) Hf. destruct (O_small k f d Hf Hd) as (e & He & Hs). apply (O_bound (S k) _ (fun p => C * f p) e); auto; [|apply O_scale; auto].
  intros p Hp. rewrite Rabs_mult, (Rabs_pos_eq C) by auto. apply H. left. apply Hs; auto.
Qed.
Lemma O_inv k f : O (S k) (fun p => f p - 1) -> O (S k) (fun p => / f p - 1).
Proof.
  intros H. destruct (O_small k _ (1 / 2) H ltac:(lra)) as (d & Hd & Hs). apply (O_bound (S k) _ (fun p => -2 * (f p - 1)) d); auto; [|apply O_scale; auto].
  intros p Hp. specialize (Hs p Hp). apply Rabs_def2 in Hs. replace (/ f p - 1) with (- (/ f p) * (f p - 1)) by (field; lra).
  rewrite !Rabs_mult. apply Rmult_le_compat_r; [apply Rabs_pos|]. rewrite Rabs_Ropp, Rabs_pos_eq by (left; apply Rinv_0_lt_compat; lra).
  replace (-2) with (-(2)) by ring. rewrite Rabs_Ropp, Rabs_pos_eq by lra. apply (Rmult_le_reg_l (f p)); [lra|]. rewrite Rinv_r by lra. lra.
Qed.
Lemma O_len3 k V : O k (fun p => (V p).[0]) -> O k (fun p => (V p).[1]) -> O k (fun p => (V p).[2]) -> O k (fun p => len3 (V p)).
Proof.
  intros (C0 & d0 & HC0 & Hd0 & H0) (C1 & d1 & HC1 & Hd1 & H1) (C2 & d2 & HC2 & Hd2 & H2). exists (C0 + C1 + C2), (Rmin d0 (Rmin d1 d2)).
  split; [lra|]. split; [repeat apply Rmin_pos; auto|]. intros p Hp.
  assert (E0 : u p <= d0) by (eapply Rle_trans; [exact Hp | apply Rmin_l]). assert (E : u p <= Rmin d1 d2) by (eapply Rle_trans; [exact Hp | apply Rmin_r]).
  assert (E1 : u p <= d1) by (eapply Rle_trans; [exact E | apply Rmin_l]). assert (E2 : u p <= d2) by (eapply Rle_trans; [exact E | apply Rmin_r]).
  specialize (H0 p E0). specialize (H1 p E1). specialize (H2 p E2). rewrite Rabs_pos_eq by apply len3_pos.
  apply Rle_trans with (Rabs (V p).[0] + Rabs (V p).[1] + Rabs (V p).[2]); [|lra]. set (x := (V p).[0]) in *. set (y := (V p).[1]) in *. set (z := (V p).[2]) in *.
  pose proof (Rabs_pos x). pose proof (Rabs_pos y). pose proof (Rabs_pos z). unfold len3. fold x y z.
  rewrite <- (sqrt_square (Rabs x + Rabs y + Rabs z)) by lra. apply sqrt_le_1_alt.
  assert (Sx : x * x = Rabs x * Rabs x) by (rewrite <- Rabs_mult; symmetry; apply Rabs_pos_eq; nra).
  assert (Sy : y * y = Rabs y * Rabs y) by (rewrite <- Rabs_mult; symmetry; apply Rabs_pos_eq; nra).
  assert (Sz : z * z = Rabs z * Rabs z) by (rewrite <- Rabs_mult; symmetry; apply Rabs_pos_eq; nra). nra.
Qed.
End Order.

(* ---- the elementary functions ---- *)
Lemma one_cos t : 0 <= 1 - cos t <= t * t / 2.
Proof.
  rewrite cos_half. replace (1 - (1 - 2 * sin (t / 2) * sin (t / 2))) with (2 * (sin (t / 2) * sin (t / 2))) by ring. split; [nra|].
  assert (H : sin (t / 2) * sin (t / 2) <= t / 2 * (t / 2)); [|lra].
  assert (Hp : forall x, 0 <= x -> sin x * sin x <= x * x).
  { intros x [Hx|<-]; [|rewrite sin_0; lra]. destruct (Rle_lt_dec x 1) as [H1|H1].
    - assert (0 < sin x) by (apply sin_gt_0; pose proof PI_RGT_0; pose proof PI2_1; lra). pose proof (sin_lt_x x Hx). nra.
    - pose proof (SIN_bound x). nra. }
  destruct (Rle_lt_dec 0 (t / 2)) as [H|H]; [apply Hp; auto|]. specialize (Hp (- (t / 2)) ltac:(lra)). rewrite sin_neg in Hp. lra.
Qed.
Lemma close_to_id (f f' : R -> R) K : 0 <= K -> f 0 = 0 -> (forall c, derivable_pt_lim f c (f' c)) -> (forall c, Rabs (f' c - 1) <= K * (c * c)) ->
  forall t, Rabs (f t - t) <= K * (Rabs t * (t * t)).
Proof.
  intros HK H0 Hd Hb t. assert (D : forall c, derivable_pt_lim (fun x => f x - x) c (f' c - 1)) by (intros c; apply (derivable_pt_lim_minus f (fun x => x)); [auto | apply derivable_pt_lim_id]).
  assert (Main : forall c, Rabs c <= Rabs t -> Rabs (f' c - 1) * Rabs t <= K * (Rabs t * (t * t))).
  { intros c Hc. assert (c * c <= t * t) by (apply Rsqr_le_abs_1 in Hc; unfold Rsqr in Hc; auto). specialize (Hb c). pose proof (Rabs_pos t).
    apply Rle_trans with (K * (c * c) * Rabs t); [apply Rmult_le_compat_r; auto|]. replace (K * (Rabs t * (t * t))) with (K * (t * t) * Rabs t) by ring. apply Rmult_le_compat_r; auto. apply Rmult_le_compat_l; auto. }
  destruct (Rtotal_order t 0) as [H|[->|H]].
  - destruct (MVT_cor2 (fun x => f x - x) (fun c => f' c - 1) t 0 H (fun c _ => D c)) as (c & Hc & Hr). rewrite H0 in Hc.
    replace (f t - t) with ((f' c - 1) * t) by lra. rewrite Rabs_mult. apply Main. rewrite !Rabs_left1 by lra. lra.
  - rewrite H0, Rminus_0_r, Rabs_R0. lra.
  - destruct (MVT_cor2 (fun x => f x - x) (fun c => f' c - 1) 0 t H (fun c _ => D c)) as (c & Hc & Hr). rewrite H0 in Hc.
    replace (f t - t) with ((f' c - 1) * t) by lra. rewrite Rabs_mult. apply Main. rewrite !Rabs_pos_eq by lra. lra.
Qed.
Lemma sin_close t : Rabs (sin t - t) <= 1 / 2 * (Rabs t * (t * t)).
Proof.
  apply (close_to_id sin cos); [lra | apply sin_0 | apply derivable_pt_lim_sin|]. intros c. pose proof (one_cos c). rewrite Rabs_left1; lra.
Qed.
Lemma atan_close t : Rabs (atan t - t) <= 1 * (Rabs t * (t * t)).
Proof.
  apply (close_to_id atan (fun c => / (1 + c ^ 2))); [lra | apply atan_0 | apply derivable_pt_lim_atan|]. intros c.
  assert (0 < 1 + c ^ 2) by nra. replace (/ (1 + c ^ 2) - 1) with (- (c * c * / (1 + c ^ 2))) by (field; lra). rewrite Rabs_Ropp, Rabs_pos_eq by (apply Rmult_le_pos; [nra | left; apply Rinv_0_lt_compat; auto]).
  rewrite Rmult_1_l. rewrite <- (Rmult_1_r (c * c)) at 2. apply Rmult_le_compat_l; [nra|]. apply (Rmult_le_reg_l (1 + c ^ 2)); auto. rewrite Rinv_r by lra. nra.
Qed.
(* f t / t with f t close to k t *)
Lemma quotient_lip f k K phi : 0 <= K -> (forall t, Rabs (f t - k * t) <= K * (Rabs t * (t * t))) -> (forall t, t <> 0 -> phi t = f t / t) -> phi 0 = k ->
  forall t, Rabs (phi t - phi 0) <= K * (t * t).
Proof.
  intros HK Hf Hp H0 t. rewrite H0. destruct (Req_dec t 0) as [->|Ht]; [rewrite H0, Rminus_diag_eq, Rabs_R0 by auto; nra|]. rewrite Hp by auto.
  replace (f t / t - k) with ((f t - k * t) / t) by (field; auto). unfold Rdiv. rewrite Rabs_mult, Rabs_inv. assert (0 < Rabs t) by (apply Rabs_pos_lt; auto).
  apply (Rmult_le_reg_r (Rabs t)); auto. rewrite Rmult_assoc, Rinv_l, Rmult_1_r by lra. specialize (Hf t). lra.
Qed.
Lemma square_lip phi K : 0 <= K -> (forall t, Rabs (phi t - phi 0) <= K * (t * t)) -> lip phi.
Proof.
  intros HK H. exists K, 1. split; auto. split; [lra|]. intros t Ht. eapply Rle_trans; [apply H|]. apply Rmult_le_compat_l; auto.
  pose proof (Rabs_pos t). replace (t * t) with (Rabs t * Rabs t) by (rewrite <- Rabs_mult; apply Rabs_pos_eq; nra). nra.
Qed.
Lemma cos_lip : lip cos.
Proof. apply (square_lip cos (1 / 2)); [lra|]. intros t. rewrite cos_0. pose proof (one_cos t). rewrite Rabs_left1; lra. Qed.
Lemma sin_lip : lip sin.
Proof.
  exists 2, 1. split; [lra|]. split; [lra|]. intros t Ht. rewrite sin_0, Rminus_0_r. replace (sin t) with (t + (sin t - t)) by ring. eapply Rle_trans; [apply Rabs_triang|].
  pose proof (sin_close t). pose proof (Rabs_pos t). assert (t * t <= 1) by (replace (t * t) with (Rabs t * Rabs t) by (rewrite <- Rabs_mult; apply Rabs_pos_eq; nra); nra). nra.
Qed.
Lemma half_sinc_near : forall t, Rabs (half_sinc t - half_sinc 0) <= 1 / 16 * (t * t).
Proof.
  apply (quotient_lip (fun t => sin (t / 2)) (1 / 2)); [lra| | |apply half_sinc_0].
  - intros t. pose proof (sin_close (t / 2)) as H. replace (Rabs (t / 2)) with (Rabs t / 2) in H by (unfold Rdiv; rewrite Rabs_mult, (Rabs_pos_eq (/ 2)); lra).
    replace (1 / 2 * t) with (t / 2) by field. lra.
  - intros t Ht. unfold half_sinc. destruct (Req_EM_T t 0); [contradiction | auto].
Qed.
Lemma half_sinc_lip : lip half_sinc. Proof. apply (square_lip _ (1 / 16)); [lra | apply half_sinc_near]. Qed.
Lemma v_s_lip : lip v_s.
Proof.
  apply (square_lip _ (1 / 2)); [lra|]. apply (quotient_lip sin 1); [lra| | |apply v_s_0].
  - intros t. rewrite Rmult_1_l. apply sin_close.
  - intros t Ht. unfold v_s. destruct (Req_EM_T t 0); [contradiction | auto].
Qed.
Lemma v_c_lip : lip v_c.
Proof.
  exists (1 / 2), 1. split; [lra|]. split; [lra|]. intros t _. rewrite v_c_0, Rminus_0_r. unfold v_c. destruct (Req_EM_T t 0) as [->|Ht]; [rewrite Rabs_R0; lra|].
  pose proof (one_cos t) as H. assert (0 < Rabs t) by (apply Rabs_pos_lt; auto). unfold Rdiv at 1. rewrite Rabs_mult, Rabs_inv, (Rabs_pos_eq (1 - cos t)) by lra.
  apply (Rmult_le_reg_r (Rabs t)); auto. rewrite Rmult_assoc, Rinv_l, Rmult_1_r by lra. replace (1 / 2 * Rabs t * Rabs t) with (t * t / 2); [lra|].
  replace (t * t) with (Rabs t * Rabs t) by (rewrite <- Rabs_mult; apply Rabs_pos_eq; nra). field.
Qed.
Lemma atc_lip : lip atc.
Proof.
  apply (square_lip _ 1); [lra|]. apply (quotient_lip atan 1); [lra| | |apply atc_0].
  - intros t. rewrite Rmult_1_l. apply atan_close.
  - intros t Ht. unfold atc. destruct (Req_EM_T t 0); [contradiction | auto].
Qed.
